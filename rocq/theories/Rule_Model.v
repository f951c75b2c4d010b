(** Model of the learning-rule compiler:
    /repo/src/lava/magma/core/learning/symbolic_equation.py (string -> symbols),
    /repo/src/lava/magma/core/learning/product_series.py (symbols -> products) and the parts of
    /repo/src/lava/magma/core/learning/learning_rule.py that use it (_validate_uk 486-523,
    _get_active_traces_from_active_product_series 583-633).
    Strings are sequences of 8-bit (Latin-1) characters; of these the regular expression \d matches
    exactly 0..9.  An exception of any kind is [None].
    Simplifications: Python's limit on the number of digits of an integer literal is ignored; the
    constant of a factor (mantissa * 2 ** exponent) is exact, where Python computes negative powers of
    two in double precision. *)
From Coq Require Import ZArith QArith List Bool Ascii String Lia.
From Verif Require Import Learning_Model.
Import ListNotations.
Open Scope Z_scope.

Definition chars := list ascii.

(** ** symbolic_equation.py *)
Definition is_digit (c : ascii) : bool := (48 <=? nat_of_ascii c)%nat && (nat_of_ascii c <=? 57)%nat.
Definition digit_val (c : ascii) : Z := Z.of_nat (nat_of_ascii c) - 48.
Definition is_char (a c : ascii) : bool := Ascii.eqb a c.

(** re.match of a fixed word: Symbol.find_expr 53-87 *)
Fixpoint after (w s : chars) : option chars :=
  match w, s with
  | [], _ => Some s
  | a :: w', c :: s' => if is_char a c then after w' s' else None
  | _ :: _, [] => None
  end.
(** re.match of \d+ (possibly empty here) *)
Fixpoint digits (s : chars) : chars * chars :=
  match s with
  | c :: r => if is_digit c then let (d, r') := digits r in (c :: d, r') else ([], s)
  | [] => ([], [])
  end.
(** re.match of [\+\-]? *)
Definition opt_sign (s : chars) : Z * chars :=
  match s with
  | c :: r => if is_char "+" c then (1, r) else if is_char "-" c then (-1, r) else (1, s)
  | [] => (1, [])
  end.

Record literal := { l_mant : Z; l_base : Z; l_exp : Z }.
(** the symbols; [SVar] only holds traces and synaptic variables *)
Inductive sym :=
| SAdd | SSub | SMul
| SX0 | SY0 | SUk (k : Z)
| SVar (v : state_var)
| SBracket (l : list sym)
| SSgn (l : list sym)
| SLit (l : literal).

(** ast.literal_eval of a string of digits: leading zeros are a SyntaxError, except in 0, 00, ... *)
Definition eval_digits (d : chars) : option Z :=
  match d with
  | [] => None
  | c :: r => if is_char "0" c && existsb (fun x => negb (is_char "0" x)) r then None
              else Some (fold_left (fun v x => 10 * v + digit_val x) d 0)
  end.
Definition omap {A B} (f : A -> B) (x : option A) : option B :=
  match x with Some a => Some (f a) | None => None end.
Definition obind {A B} (x : option A) (f : A -> option B) : option B :=
  match x with Some a => f a | None => None end.

(** the outcome of X.find(expr): no match, an exception, or a symbol and the rest *)
Inductive found := NoMatch | Raise | Found (y : sym) (rest : chars).

(** the tail 2\^[\+\-]?\d+ of the literal expressions *)
Definition pow_tail (s : chars) : option (Z * chars * chars) :=
  match after ["2"; "^"]%char s with
  | Some r => let (sg, r1) := opt_sign r in
              let (d, r2) := digits r1 in
              match d with [] => None | _ => Some (sg, d, r2) end
  | None => None
  end.
(** Literal.find 720-762 and to_int 687-706; the leading [\+\-]? of the regular expressions cannot match
    anything, because Addition and Subtraction are tried before Literal *)
Definition find_literal (s : chars) : found :=
  let (d, r) := digits s in
  let type0 := match d with
               | [] => None
               | _ => match after ["*"]%char r with Some r' => pow_tail r' | None => None end
               end in
  match type0 with
  | Some (sg, e, rest) =>
      match eval_digits d, eval_digits e with
      | Some m, Some x => Found (SLit {| l_mant := m; l_base := 2; l_exp := sg * x |}) rest
      | _, _ => Raise
      end
  | None =>
      match pow_tail s with
      | Some (sg, e, rest) =>
          match eval_digits e with
          | Some x => Found (SLit {| l_mant := 1; l_base := 2; l_exp := sg * x |}) rest
          | None => Raise
          end
      | None =>
          match d with
          | [] => NoMatch
          | _ => match eval_digits d with
                 | Some m => Found (SLit {| l_mant := m; l_base := 1; l_exp := 0 |}) r
                 | None => Raise
                 end
          end
      end
  end.

(** the closing bracket of the opening one just read: _find_closing_bracket_idx 459-487 *)
Fixpoint split_close (depth : nat) (s : chars) : option (chars * chars) :=
  match s with
  | [] => None
  | c :: r =>
      if is_char ")" c then
        match depth with
        | O => Some ([], r)
        | S d => omap (fun p => (c :: fst p, snd p)) (split_close d r)
        end
      else omap (fun p => (c :: fst p, snd p)) (split_close (if is_char "(" c then S depth else depth) r)
  end.

(** a symbol given by a fixed word *)
Definition word (w : chars) (y : sym) (s : chars) : found :=
  match after w s with Some r => Found y r | None => NoMatch end.
(** Uk.find 331-357 *)
Definition find_uk (s : chars) : found :=
  match after ["u"]%char s with
  | Some (c :: r) => if is_digit c then Found (SUk (digit_val c)) r else NoMatch
  | _ => NoMatch
  end.
(** BracketExpression.find 522-552, SgnExpression.find 586-616, and the recursive call in
    _find_next_symbol 815-845; [rec] is _parse *)
Definition find_expr (rec : chars -> option (list sym)) (w : chars) (mk : list sym -> sym) (s : chars) : found :=
  match after w s with
  | None => NoMatch
  | Some r => match split_close 0 r with
              | None => Raise
              | Some (sub, rest) => match rec sub with Some l => Found (mk l) rest | None => Raise end
              end
  end.
(** the classes in the order of SYMBOL_CLASSES 768-769; Variable.find 367-400 *)
Fixpoint first_found (l : list (chars -> found)) (s : chars) : found :=
  match l with
  | [] => NoMatch
  | f :: r => match f s with NoMatch => first_found r s | x => x end
  end.
Definition finders (rec : chars -> option (list sym)) : list (chars -> found) :=
  [ word ["+"]%char SAdd; word ["-"]%char SSub; word ["*"]%char SMul;
    word ["x"; "0"]%char SX0; word ["y"; "0"]%char SY0; find_uk;
    word ["x"; "1"]%char (SVar (VTrace TX1)); word ["x"; "2"]%char (SVar (VTrace TX2));
    word ["y"; "1"]%char (SVar (VTrace TY1)); word ["y"; "2"]%char (SVar (VTrace TY2));
    word ["y"; "3"]%char (SVar (VTrace TY3));
    word ["w"]%char (SVar (VSyn SWeights)); word ["d"]%char (SVar (VSyn STag2)); word ["t"]%char (SVar (VSyn STag1));
    find_expr rec ["("]%char SBracket; find_expr rec ["s"; "g"; "n"; "("]%char SSgn;
    find_literal ].
Definition find_next (rec : chars -> option (list sym)) : chars -> found := first_found (finders rec).

(** _parse 847-871: text in which no symbol is found (also the empty text) makes symbol_list.append(None)
    raise.  The fuel is more than the length of the text. *)
Fixpoint parse_fuel (n : nat) (s : chars) : option (list sym) :=
  match n with
  | O => None
  | S k => match find_next (parse_fuel k) s with
           | Found y [] => Some [y]
           | Found y r => omap (cons y) (parse_fuel k r)
           | _ => None
           end
  end.
Definition parse (s : chars) : option (list sym) := parse_fuel (S (List.length s)) s.

(** re.sub(' ', '', rule) in _generate_symbol_list_from_string 873-886 *)
Definition remove_spaces (s : chars) : chars := filter (fun c => negb (is_char " " c)) s.

(** ** product_series.py *)
(** Factor.__init__ 44-64 and Product.__init__ 194-210; [None] is the absent constant *)
Record rfactor := { rf_var : state_var; rf_const : option Q; rf_sgn : bool }.
Record rproduct := { rp_dep : dep; rp_mant : Z; rp_exp : Z; rp_factors : list rfactor; rp_decimate : option Z }.

(** _separate_products 508-545 *)
Fixpoint separate (l cur : list sym) : list (list sym) :=
  match l with
  | [] => [cur]
  | y :: r =>
      match y with
      | SMul => separate r cur
      | SAdd | SSub => match cur with [] => separate r [y] | _ => cur :: separate r [y] end
      | _ => separate r (cur ++ [y])
      end
  end.

(** the local variables of _generate_product 547-743 and self._decimate_exponent *)
Record gen := { g_dep : option dep; g_dec : option Z; g_mant : Z; g_exp : Z; g_factors : list rfactor;
                g_series : option Z }.
Definition add_factor (g : gen) (f : rfactor) : gen :=
  {| g_dep := g_dep g; g_dec := g_dec g; g_mant := g_mant g; g_exp := g_exp g;
     g_factors := g_factors g ++ [f]; g_series := g_series g |}.
Definition scale (g : gen) (m e : Z) : gen :=
  {| g_dep := g_dep g; g_dec := g_dec g; g_mant := g_mant g * m; g_exp := g_exp g + e;
     g_factors := g_factors g; g_series := g_series g |}.
Definition set_dep (g : gen) (d : dep) : gen :=
  {| g_dep := Some d; g_dec := g_dec g; g_mant := g_mant g; g_exp := g_exp g;
     g_factors := g_factors g; g_series := g_series g |}.
Definition plain_factor (v : state_var) : rfactor := {| rf_var := v; rf_const := None; rf_sgn := false |}.

Definition pow2 (e : Z) : Q := Qpower 2 e.
(** mantissa * base ** exponent; the base is 2, or 1 with exponent 0 *)
Definition lit_const (l : literal) : Q := (inject_Z (l_mant l) * pow2 (l_exp l))%Q.
Definition is_operator (y : sym) : bool := match y with SAdd | SSub | SMul => true | _ => false end.
Definition is_sub (y : sym) : bool := match y with SSub => true | _ => false end.
(** a variable or dependency inside brackets; Factor("u<k>") is refused *)
Definition inner_var (y : sym) : option state_var :=
  match y with SX0 => Some VX0 | SY0 => Some VY0 | SVar v => Some v | _ => None end.
Definition is_inner (y : sym) : bool := match y with SX0 | SY0 | SUk _ | SVar _ => true | _ => false end.
Definition lit_of (y : sym) : option literal := match y with SLit l => Some l | _ => None end.

(** what a sub-expression contributes: scaling, variable and constant, and whether the variable of a
    [+,-]var[+,-]const expression was subtracted *)
Record inner := { i_mant : Z; i_exp : Z; i_var : option state_var; i_const : option Q; i_neg : bool }.
Definition var_const (v c : sym) (op_v op_c : sym) : option inner :=
  match inner_var v, lit_of c with
  | Some x, Some l =>
      let const := ((if is_sub op_c then -1 else 1) * lit_const l)%Q in
      Some {| i_mant := if is_sub op_v then -1 else 1; i_exp := 0; i_var := Some x;
              i_const := Some (if is_sub op_v then (- const)%Q else const); i_neg := is_sub op_v |}
  | _, _ => None
  end.
(** 611-690 *)
Definition read_inner (l : list sym) : option inner :=
  let l' := match l with y :: _ => if is_operator y then l else SAdd :: l | [] => [] end in
  match l' with
  | [op; SVar v] => Some {| i_mant := 1; i_exp := 0; i_var := Some v; i_const := None; i_neg := false |}
  | [op; SLit c] => Some {| i_mant := l_mant c * (if is_sub op then -1 else 1); i_exp := l_exp c;
                            i_var := None; i_const := None; i_neg := false |}
  | [op; _] => Some {| i_mant := 1; i_exp := 0; i_var := None; i_const := None; i_neg := false |}
  | op1 :: a :: op2 :: b :: _ =>
      if is_inner a && match lit_of b with Some _ => true | None => false end then var_const a b op1 op2
      else if is_inner b && match lit_of a with Some _ => true | None => false end then var_const b a op2 op1
      else None
  | _ => None
  end.

(** one iteration of the loop 569-714 *)
Definition gen_symbol (g : gen) (y : sym) : option gen :=
  match y with
  | SAdd => Some g
  | SSub => Some (scale g (-1) 0)
  | SMul => None
  | SX0 => Some (match g_dep g with None => set_dep g DX0 | Some _ => add_factor g (plain_factor VX0) end)
  | SY0 => Some (match g_dep g with None => set_dep g DY0 | Some _ => add_factor g (plain_factor VY0) end)
  | SUk k =>
      let ok := match g_series g with Some k' => k' =? k | None => true end in
      if ok then
        Some {| g_dep := match g_dep g with None => Some DU | d => d end; g_dec := Some k;
                g_mant := g_mant g; g_exp := g_exp g; g_factors := g_factors g; g_series := Some k |}
      else None
  | SLit l => Some (scale g (l_mant l) (l_exp l))
  | SVar v => Some (add_factor g (plain_factor v))
  | SBracket l =>
      obind (read_inner l) (fun i =>
        let g' := scale g (i_mant i) (i_exp i) in
        Some (match i_var i with
              | Some v => add_factor g' {| rf_var := v; rf_const := i_const i; rf_sgn := false |}
              | None => g'
              end))
  | SSgn l =>
      obind (read_inner l) (fun i =>
        match i_var i with
        | Some (VSyn s) =>
            if i_neg i then None
            else Some (add_factor (scale g (i_mant i) (i_exp i))
                         {| rf_var := VSyn s; rf_const := i_const i; rf_sgn := true |})
        | _ => None
        end)
  end.
Fixpoint gen_symbols (l : list sym) (g : gen) : option gen :=
  match l with [] => Some g | y :: r => obind (gen_symbol g y) (gen_symbols r) end.

(** int(m / 2) for an even integer m: the true division rounds to double precision, half to even, and
    overflows at 2^1024 *)
Definition py_half (m : Z) : option Z :=
  if Z.abs m <? 2 ^ 54 then Some (m / 2)
  else let e := Z.log2 (Z.abs m) - 52 in
       let q := Z.abs m / 2 ^ e in
       let r := Z.abs m mod 2 ^ e in
       let q' := if 2 * r <? 2 ^ e then q else if 2 ^ e <? 2 * r then q + 1 else if Z.even q then q else q + 1 in
       let h := q' * 2 ^ (e - 1) in
       if h <? 2 ^ 1024 then Some (Z.sgn m * h) else None.
(** the loop 716-718; the mantissa loses one bit per iteration (but one iteration may round up) *)
Fixpoint normalize (n : nat) (m e : Z) : option (Z * Z) :=
  if (7 <? Z.abs m) && Z.even m && (e <? 8) then
    match n with
    | O => None
    | S k => obind (py_half m) (fun m' => normalize k m' (e + 1))
    end
  else Some (m, e).
Definition norm_fuel (m : Z) : nat := Z.to_nat (Z.log2 (Z.abs m)) + 2.

(** _generate_product 547-743 and Product.__init__; the result includes the new self._decimate_exponent *)
Definition gen_product (series : option Z) (l : list sym) : option (rproduct * option Z) :=
  obind (gen_symbols l {| g_dep := None; g_dec := None; g_mant := 1; g_exp := 0; g_factors := []; g_series := series |})
    (fun g => obind (normalize (norm_fuel (g_mant g)) (g_mant g) (g_exp g)) (fun me =>
       let (m, e) := me in
       match g_dep g with
       | None => None
       | Some d =>
           if (m <? -8) || (8 <=? m) then None
           else if (e <? -7) || (9 <=? e) then None
           else if match g_dec g, d with Some _, DU => false | None, DX0 => false | None, DY0 => false | _, _ => true end
           then None
           else Some ({| rp_dep := d; rp_mant := m; rp_exp := e + 7; rp_factors := g_factors g;
                         rp_decimate := g_dec g |}, g_series g)
       end)).
(** _generate_product_list_from_symbol_list 483-505 *)
Fixpoint gen_products (series : option Z) (l : list (list sym)) : option (list rproduct * option Z) :=
  match l with
  | [] => Some ([], series)
  | x :: r => obind (gen_product series x) (fun p =>
                omap (fun q => (fst p :: fst q, snd q)) (gen_products (snd p) r))
  end.

(** ProductSeries(SymbolicEquation(target, s)): learning_rule.py _generate_product_series_from_string
    636-660; the products and the decimate exponent *)
Definition compile (s : string) : option (list rproduct * option Z) :=
  obind (parse (remove_spaces (list_ascii_of_string s))) (fun l => gen_products None (separate l [])).

(** ** learning_rule.py *)
(** re.findall("u[0-9]+"): the digits of every match *)
Fixpoint find_uks (n : nat) (s : chars) : list chars :=
  match n, s with
  | S k, c :: r => if is_char "u" c then
                     let (d, r') := digits r in
                     match d with [] => find_uks k r | _ => d :: find_uks k r' end
                   else find_uks k r
  | _, _ => []
  end.
Definition same_digits (a b : chars) : bool := if list_eq_dec ascii_dec a b then true else false.
(** _validate_uk 486-523: the outer option is the exception *)
Definition validate_uk (rules : list string) : option (option Z) :=
  match flat_map (fun s => let c := list_ascii_of_string s in find_uks (List.length c) c) rules with
  | [] => Some None
  | d :: r => if forallb (same_digits d) r
              then Some (match d with c :: _ => Some (digit_val c) | [] => None end)
              else None
  end.
(** active_traces_per_dependency: product_series.py 448-481, learning_rule.py 583-633; here the question
    whether a trace is in the set of a dependency *)
Definition trace_eqb (a b : trace) : bool :=
  match a, b with TX1, TX1 | TX2, TX2 | TY1, TY1 | TY2, TY2 | TY3, TY3 => true | _, _ => false end.
Definition dep_eqb (a b : dep) : bool :=
  match a, b with DX0, DX0 | DY0, DY0 | DU, DU => true | _, _ => false end.
Definition active (series : list (list rproduct)) (d : dep) (tr : trace) : bool :=
  existsb (existsb (fun p => dep_eqb (rp_dep p) d &&
     existsb (fun f => match rf_var f with VTrace t => trace_eqb t tr | _ => false end) (rp_factors p))) series.
