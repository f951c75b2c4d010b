(** What a learning rule such as "2*x0*y1 - 2^-3*y0*(w-4)*sgn(t)" means, without reference to the compiler:
    the documented grammar (sums of signed products of dependencies, variables, literals, brackets
    (+-var +-const) and sgn(var +-const)), how it is written, and its arithmetic value. *)
From Coq Require Import ZArith QArith List Bool Ascii String.
Import ListNotations.
Open Scope Z_scope.

Inductive event := Pre | Post | Periodic (k : nat).            (* x0, y0, u<k> *)
Inductive var := X1 | X2 | Y1 | Y2 | Y3 | W | D | T.
Inductive sign := NoSign | Plus | Minus.
Definition numeral := list ascii.
Inductive lit := Plain (n : numeral) | Pow (s : sign) (n : numeral) | Scaled (m : numeral) (s : sign) (n : numeral).
(** x0 and y0 may appear inside brackets, too *)
Inductive base := BVar (v : var) | BPre | BPost.
Inductive inside :=
| InVar (s : sign) (v : var)                               (* (+v) *)
| InLit (s : sign) (l : lit)                               (* (-c) *)
| VarLit (s : sign) (b : base) (s' : sign) (l : lit)       (* (-v+c) *)
| LitVar (s : sign) (l : lit) (s' : sign) (b : base).      (* (c-v) *)
Inductive atom := AEvent (e : event) | AVar (v : var) | ALit (l : lit) | ABracket (i : inside) | ASgn (i : inside).
Record term := { t_sign : sign; t_atoms : list atom }.
Definition rule := list term.

(** ** How a rule is written *)
Definition is_numeral (n : numeral) : Prop :=
  n <> [] /\ Forall (fun c => In c (list_ascii_of_string "0123456789")) n /\
  (Forall (fun c => c = "0"%char) n \/ hd "0"%char n <> "0"%char).
Definition show_sign (s : sign) : list ascii :=
  match s with NoSign => [] | Plus => ["+"%char] | Minus => ["-"%char] end.
Definition show_event (e : event) : list ascii :=
  match e with
  | Pre => list_ascii_of_string "x0" | Post => list_ascii_of_string "y0"
  | Periodic k => "u"%char :: [nth k (list_ascii_of_string "0123456789") "0"%char]
  end.
Definition show_var (v : var) : list ascii :=
  list_ascii_of_string (match v with X1 => "x1" | X2 => "x2" | Y1 => "y1" | Y2 => "y2" | Y3 => "y3"
                                | W => "w" | D => "d" | T => "t" end)%string.
Definition show_lit (l : lit) : list ascii :=
  match l with
  | Plain n => n
  | Pow s n => list_ascii_of_string "2^" ++ show_sign s ++ n
  | Scaled m s n => m ++ list_ascii_of_string "*2^" ++ show_sign s ++ n
  end.
Definition show_base (b : base) : list ascii :=
  match b with BVar v => show_var v | BPre => show_event Pre | BPost => show_event Post end.
Definition show_inside (i : inside) : list ascii :=
  match i with
  | InVar s v => show_sign s ++ show_var v
  | InLit s l => show_sign s ++ show_lit l
  | VarLit s b s' l => show_sign s ++ show_base b ++ show_sign s' ++ show_lit l
  | LitVar s l s' b => show_sign s ++ show_lit l ++ show_sign s' ++ show_base b
  end.
Definition show_atom (a : atom) : list ascii :=
  match a with
  | AEvent e => show_event e
  | AVar v => show_var v
  | ALit l => show_lit l
  | ABracket i => "("%char :: show_inside i ++ [")"%char]
  | ASgn i => list_ascii_of_string "sgn(" ++ show_inside i ++ [")"%char]
  end.
Fixpoint show_atoms (l : list atom) : list ascii :=
  match l with
  | [] => []
  | [a] => show_atom a
  | a :: r => show_atom a ++ "*"%char :: show_atoms r
  end.
Definition show_term (t : term) : list ascii := show_sign (t_sign t) ++ show_atoms (t_atoms t).
Definition show_rule (r : rule) : list ascii := List.concat (map show_term r).
(** the string [s] writes the rule [r]: it is the text of [r] with spaces anywhere *)
Definition writes (s : string) (r : rule) : Prop :=
  filter (fun c => negb (Ascii.eqb " " c)) (list_ascii_of_string s) = show_rule r.

(** ** Well-formed rules *)
Definition wf_lit (l : lit) : Prop :=
  match l with Plain n => is_numeral n | Pow _ n => is_numeral n | Scaled m _ n => is_numeral m /\ is_numeral n end.
Definition synaptic (v : var) : Prop := v = W \/ v = D \/ v = T.
Definition wf_bracket (i : inside) : Prop :=
  match i with
  | InVar s v => s <> Minus
  | InLit s l => wf_lit l
  | VarLit s b s' l => wf_lit l /\ s' <> NoSign
  | LitVar s l s' b => wf_lit l /\ s' <> NoSign
  end.
Definition wf_sgn (i : inside) : Prop :=
  match i with
  | InVar s v => s <> Minus /\ synaptic v
  | InLit s l => False
  | VarLit s b s' l => s <> Minus /\ (exists v, b = BVar v /\ synaptic v) /\ wf_lit l /\ s' <> NoSign
  | LitVar s l s' b => s' = Plus /\ (exists v, b = BVar v /\ synaptic v) /\ wf_lit l
  end.
Definition wf_atom (a : atom) : Prop :=
  match a with
  | AEvent (Periodic k) => (k < 10)%nat
  | AEvent _ | AVar _ => True
  | ALit l => wf_lit l
  | ABracket i => wf_bracket i
  | ASgn i => wf_sgn i
  end.
Definition wf_term (t : term) : Prop := t_atoms t <> [] /\ Forall wf_atom (t_atoms t).
(** the first term may have no sign *)
Definition wf_rule (r : rule) : Prop :=
  r <> [] /\ Forall wf_term r /\ Forall (fun t => t_sign t <> NoSign) (tl r).

(** ** Its value *)
Definition digit (c : ascii) : Z := Z.of_nat (nat_of_ascii c) - Z.of_nat (nat_of_ascii "0").
Fixpoint numeral_value (n : numeral) : Z :=
  match n with [] => 0 | c :: r => digit c * 10 ^ Z.of_nat (List.length r) + numeral_value r end.
Definition sign_value (s : sign) : Z := match s with Minus => -1 | _ => 1 end.
(** a literal is [mantissa * 2 ^ exponent] *)
Definition lit_mant (l : lit) : Z :=
  match l with Plain n => numeral_value n | Pow _ _ => 1 | Scaled m _ _ => numeral_value m end.
Definition lit_exp (l : lit) : Z :=
  match l with Plain _ => 0 | Pow s n | Scaled _ s n => sign_value s * numeral_value n end.
Definition lit_value (l : lit) : Q := (inject_Z (lit_mant l) * Qpower 2 (lit_exp l))%Q.

(** what happens in a learning epoch: which events occur (0 or 1), and the value of every variable at the
    time of an event (traces are evaluated at the time of the dependency of the product) *)
Record env := { occurs : event -> Q; at_event : event -> var -> Q }.
Definition binary (rho : env) : Prop := forall e, occurs rho e == 0 \/ occurs rho e == 1.
Definition sgn (q : Q) : Q := if Qeq_bool q 0 then 0 else if Qle_bool 0 q then 1 else -1.

Definition base_value (rho : env) (e : event) (b : base) : Q :=
  match b with BVar v => at_event rho e v | BPre => occurs rho Pre | BPost => occurs rho Post end.
Definition signed (s : sign) (q : Q) : Q := (inject_Z (sign_value s) * q)%Q.
Definition inside_value (rho : env) (e : event) (i : inside) : Q :=
  match i with
  | InVar s v => signed s (at_event rho e v)
  | InLit s l => signed s (lit_value l)
  | VarLit s b s' l => (signed s (base_value rho e b) + signed s' (lit_value l))%Q
  | LitVar s l s' b => (signed s (lit_value l) + signed s' (base_value rho e b))%Q
  end.
Definition atom_value (rho : env) (e : event) (a : atom) : Q :=
  match a with
  | AEvent f => occurs rho f
  | AVar v => at_event rho e v
  | ALit l => lit_value l
  | ABracket i => inside_value rho e i
  | ASgn i => sgn (inside_value rho e i)
  end.
(** the dependency of a product is the first one written *)
Fixpoint dependency (l : list atom) : option event :=
  match l with [] => None | AEvent e :: _ => Some e | _ :: r => dependency r end.
Definition qprod (l : list Q) : Q := fold_right Qmult 1%Q l.
Definition qsum (l : list Q) : Q := fold_right Qplus 0%Q l.
Definition term_value (rho : env) (t : term) : Q :=
  let e := match dependency (t_atoms t) with Some e => e | None => Pre end in
  signed (t_sign t) (qprod (map (atom_value rho e) (t_atoms t))).
Definition rule_value (rho : env) (r : rule) : Q := qsum (map (term_value rho) r).

(** the scaling constant of a product: the literals outside of sums *)
Definition atom_scale (a : atom) : Z * Z :=
  match a with
  | ALit l => (lit_mant l, lit_exp l)
  | ABracket (InLit s l) => (sign_value s * lit_mant l, lit_exp l)
  | ABracket (VarLit s _ _ _) | ABracket (LitVar _ _ s _) => (sign_value s, 0)     (* -(v-c) for (-v+c) *)
  | _ => (1, 0)
  end.
Definition term_mant (t : term) : Z :=
  sign_value (t_sign t) * fold_right (fun a m => fst (atom_scale a) * m) 1 (t_atoms t).
Definition term_exp (t : term) : Z := fold_right (fun a e => snd (atom_scale a) + e) 0 (t_atoms t).

(** ** Which rules are accepted *)
(** the scaling constant can be written with a mantissa in -8..7 and an exponent in -7..8, moving only as many
    factors 2 from the mantissa to the exponent as the mantissa needs *)
Definition representable (m e : Z) : Prop :=
  exists k m', 0 <= k /\ m = m' * 2 ^ k /\ -8 <= m' < 8 /\ -7 <= e + k <= 8 /\
               (k = 0 \/ 7 < Z.abs (m' * 2)).
Definition periods (l : list atom) : list nat :=
  flat_map (fun a => match a with AEvent (Periodic k) => [k] | _ => [] end) l.
Definition acceptable (r : rule) : Prop :=
  (forall t, In t r ->
     representable (term_mant t) (term_exp t) /\
     exists e, dependency (t_atoms t) = Some e /\
               (* u<k> may only be written first *)
               (periods (t_atoms t) = [] \/ exists k, e = Periodic k)) /\
  (forall t t' k k', In t r -> In t' r -> In k (periods (t_atoms t)) -> In k' (periods (t_atoms t')) -> k = k').
(** no intermediate result needs more than the 53 bits of a double *)
Definition small (r : rule) : Prop := forall t, In t r -> Z.abs (term_mant t) < 2 ^ 54.

(** the traces a product mentions *)
Definition inside_var (i : inside) : option var :=
  match i with InVar _ v | VarLit _ (BVar v) _ _ | LitVar _ _ _ (BVar v) => Some v | _ => None end.
Definition atom_var (a : atom) : option var :=
  match a with AVar v => Some v | ABracket i | ASgn i => inside_var i | _ => None end.
Definition mentions (t : term) (v : var) : Prop := exists a, In a (t_atoms t) /\ atom_var a = Some v.

(** ** General arithmetic expressions, to say what the compiler gets wrong *)
Inductive expr :=
| EEvent (e : event) | EVar (v : var) | ELit (l : lit)
| EAdd (a b : expr) | ESub (a b : expr) | EMul (a b : expr) | ENeg (a : expr) | EPos (a : expr)
| EBracket (a : expr) | ESgn (a : expr).
Fixpoint show_expr (x : expr) : list ascii :=
  match x with
  | EEvent e => show_event e | EVar v => show_var v | ELit l => show_lit l
  | EAdd a b => show_expr a ++ "+"%char :: show_expr b
  | ESub a b => show_expr a ++ "-"%char :: show_expr b
  | EMul a b => show_expr a ++ "*"%char :: show_expr b
  | ENeg a => "-"%char :: show_expr a
  | EPos a => "+"%char :: show_expr a
  | EBracket a => "("%char :: show_expr a ++ [")"%char]
  | ESgn a => list_ascii_of_string "sgn(" ++ show_expr a ++ [")"%char]
  end.
(** the text reads back as the same tree by the usual rules: operands of a product are no sums *)
Definition prec (x : expr) : nat :=
  match x with EAdd _ _ | ESub _ _ | ENeg _ | EPos _ => 0 | EMul _ _ => 1 | _ => 2 end.
Fixpoint well_bracketed (x : expr) : Prop :=
  match x with
  | EAdd a b => well_bracketed a /\ well_bracketed b /\ (1 <= prec b)%nat
  | ESub a b => well_bracketed a /\ well_bracketed b /\ (1 <= prec b)%nat
  | EMul a b => well_bracketed a /\ well_bracketed b /\ (1 <= prec a)%nat /\ (2 <= prec b)%nat
  | ENeg a | EPos a => well_bracketed a /\ (1 <= prec a)%nat
  | EBracket a | ESgn a => well_bracketed a
  | ELit l => wf_lit l
  | EEvent (Periodic k) => (k < 10)%nat
  | _ => True
  end.
Fixpoint expr_value (occ : event -> Q) (val : var -> Q) (x : expr) : Q :=
  match x with
  | EEvent e => occ e | EVar v => val v | ELit l => lit_value l
  | EAdd a b => (expr_value occ val a + expr_value occ val b)%Q
  | ESub a b => (expr_value occ val a - expr_value occ val b)%Q
  | EMul a b => (expr_value occ val a * expr_value occ val b)%Q
  | ENeg a => (- expr_value occ val a)%Q
  | EPos a => expr_value occ val a
  | EBracket a => expr_value occ val a
  | ESgn a => sgn (expr_value occ val a)
  end.
