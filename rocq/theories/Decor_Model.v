(* C94: the class decorators @implements, @requires and @tag
   (src/lava/magma/core/decorator.py) acting on a table of Python classes.

   Python's own class machinery (class creation, C3 linearisation of the bases,
   attribute lookup along the method resolution order) is modelled explicitly,
   because the decorators read their attributes through it. *)
From Coq Require Import List Arith String Bool.
Import ListNotations.

(* A required resource: a class, or a list of alternatives
   (decorator.py 70-82: "[Res3, Res4] -> one of Res3 or Res4"). *)
Inductive req : Type :=
| One (r : nat)
| Alt (rs : list nat).

(* A class object: its method resolution order (without 'object') and those of
   the four class attributes of model.py 76-79 that are in its own __dict__.
   Process and protocol classes are numbers; None is Python's None. *)
Record cls : Type := mkcls {
  k_mro : list nat;
  k_proc : option (option nat);
  k_proto : option (option nat);
  k_req : option (list req);
  k_tags : option (list string) }.

(* The class table; a class is named by its position. *)
Definition table := list cls.

(* model.py 76-79: AbstractProcessModel defines all four attributes. It is
   class 0. *)
Definition apm : cls := mkcls [0] (Some None) (Some None) (Some []) (Some []).
Definition table0 : table := [apm].

(* ------------------------------------------------------------------ *)
(* Python: attribute lookup and C3 linearisation (not in /repo)        *)

Fixpoint first_own {A} (f : cls -> option A) (st : table) (l : list nat)
  : option A :=
  match l with
  | [] => None
  | c :: l' =>
      match nth_error st c with
      | Some k => match f k with
                  | Some a => Some a
                  | None => first_own f st l'
                  end
      | None => first_own f st l'
      end
  end.

Definition mro_of (st : table) (c : nat) : list nat :=
  match nth_error st c with Some k => k_mro k | None => [] end.

(* cls.attribute; None: AttributeError *)
Definition attr {A} (f : cls -> option A) (st : table) (c : nat) : option A :=
  first_own f st (mro_of st c).

Definition memb (x : nat) (l : list nat) : bool := existsb (Nat.eqb x) l.

Definition in_tail (h : nat) (s : list nat) : bool :=
  match s with [] => false | _ :: t => memb h t end.

(* the first head of a sequence that is in the tail of none *)
Fixpoint good_head (all seqs : list (list nat)) : option nat :=
  match seqs with
  | [] => None
  | [] :: r => good_head all r
  | (h :: _) :: r =>
      if existsb (in_tail h) all then good_head all r else Some h
  end.

Definition drop_head (h : nat) (s : list nat) : list nat :=
  match s with
  | [] => []
  | x :: t => if x =? h then t else s
  end.

Definition is_nil (s : list nat) : bool :=
  match s with [] => true | _ => false end.

(* C3 merge; the fuel is the total length of the sequences *)
Fixpoint c3merge (fuel : nat) (seqs : list (list nat)) : option (list nat) :=
  if forallb is_nil seqs then Some [] else
  match fuel with
  | 0 => None
  | S n =>
      match good_head seqs seqs with
      | None => None
      | Some h =>
          match c3merge n (map (drop_head h) seqs) with
          | Some l => Some (h :: l)
          | None => None
          end
      end
  end.

Definition total_len (seqs : list (list nat)) : nat :=
  fold_right (fun s n => List.length s + n) 0 seqs.

Definition linearise (st : table) (c : nat) (bases : list nat)
  : option (list nat) :=
  let seqs := map (mro_of st) bases ++ [bases] in
  match c3merge (total_len seqs) seqs with
  | Some l => Some (c :: l)
  | None => None
  end.

(* ------------------------------------------------------------------ *)
(* The decorators                                                      *)

Inductive outcome : Type :=
| Done | AssertionErr | TypeErr | NameErr.

(* An argument where a class is expected: a class of the right kind, another
   class, or an object that is not a class (issubclass raises TypeError). *)
Inductive carg : Type :=
| CNone                    (* None: the default of 'implements' *)
| CGood (n : nat)
| COther
| CNotClass.

(* An argument of requires(...). A tuple is not a list: it reaches issubclass
   and is a CNotClass there. *)
Inductive rarg : Type :=
| RArg (a : carg)
| RList (l : list carg).

(* An argument of tag(...) *)
Inductive targ : Type :=
| TStr (s : string)
| TOther.

Inductive dec : Type :=
| Implements (proc protocol : carg)
| Requires (args : list rarg)
| Tag (args : list targ).

(* decorator.py 27-32: the argument checks of implements(...) *)
Definition check_impl (a : carg) : outcome :=
  match a with
  | CNone => Done
  | CGood _ => Done
  | COther => AssertionErr
  | CNotClass => TypeErr
  end.

(* decorator.py 86-93: issubclass(r, AbstractResource). None is not a class. *)
Definition check_res (a : carg) : outcome :=
  match a with
  | CGood _ => Done
  | COther => AssertionErr
  | CNone | CNotClass => TypeErr
  end.

Fixpoint check_all (l : list carg) : outcome :=
  match l with
  | [] => Done
  | a :: l' => match check_res a with Done => check_all l' | e => e end
  end.

(* decorator.py 86-94 *)
Fixpoint check_reqs (l : list rarg) : outcome :=
  match l with
  | [] => Done
  | RArg a :: l' => match check_res a with Done => check_reqs l' | e => e end
  | RList rs :: l' => match check_all rs with Done => check_reqs l' | e => e end
  end.

Definition good_of (a : carg) : list nat :=
  match a with CGood n => [n] | _ => [] end.

(* the objects stored for the (checked) arguments *)
Definition to_req (a : rarg) : list req :=
  match a with
  | RArg a => map One (good_of a)
  | RList l => [Alt (flat_map good_of l)]
  end.

(* decorator.py 144-153 *)
Definition check_tag (a : targ) : outcome :=
  match a with TStr _ => Done | TOther => AssertionErr end.

Fixpoint check_tags (l : list targ) : outcome :=
  match l with
  | [] => Done
  | a :: l' => match check_tag a with Done => check_tags l' | e => e end
  end.

Definition to_tag (a : targ) : list string :=
  match a with TStr s => [s] | TOther => [] end.

(* evaluating the decorator expression, before any class is seen *)
Definition check_dec (d : dec) : outcome :=
  match d with
  | Implements p q => match check_impl p with Done => check_impl q | e => e end
  | Requires l => check_reqs l
  | Tag l => check_tags l
  end.

(* setattr on one class: only its own __dict__ changes *)
Fixpoint upd (st : table) (c : nat) (f : cls -> cls) : table :=
  match st, c with
  | [], _ => []
  | k :: st', 0 => f k :: st'
  | k :: st', S c' => k :: upd st' c' f
  end.

Definition set_proc (p : nat) (k : cls) : cls :=
  mkcls (k_mro k) (Some (Some p)) (k_proto k) (k_req k) (k_tags k).
Definition set_proto (p : nat) (k : cls) : cls :=
  mkcls (k_mro k) (k_proc k) (Some (Some p)) (k_req k) (k_tags k).
Definition set_req (l : list req) (k : cls) : cls :=
  mkcls (k_mro k) (k_proc k) (k_proto k) (Some l) (k_tags k).
Definition set_tags (l : list string) (k : cls) : cls :=
  mkcls (k_mro k) (k_proc k) (k_proto k) (k_req k) (Some l).

(* decorator.py 35-37, 97-99, 156-158: issubclass(cls, AbstractProcessModel) *)
Definition is_pm (st : table) (c : nat) : bool := memb 0 (mro_of st c).

(* "cls.X and new and cls.X != new" of decorator.py 41, 53 *)
Definition conflict (cur : option (option nat)) (new : carg) : bool :=
  match cur, new with
  | Some (Some p), CGood q => negb (p =? q)
  | _, _ => false
  end.

(* decorator.py 34-66: process first, then protocol; an AssertionError for the
   protocol comes after the process has been set *)
Definition apply_impl (st : table) (c : nat) (p q : carg) : table * outcome :=
  if conflict (attr k_proc st c) p then (st, AssertionErr) else
  let st1 := match p with CGood n => upd st c (set_proc n) | _ => st end in
  if conflict (attr k_proto st1 c) q then (st1, AssertionErr) else
  let st2 := match q with CGood n => upd st1 c (set_proto n) | _ => st1 end in
  (st2, Done).

(* decorator.py 96-109: cls.required_resources.copy() + reqs.
   None: AttributeError, impossible below AbstractProcessModel *)
Definition apply_req (st : table) (c : nat) (l : list rarg)
  : table * outcome :=
  match attr k_req st c with
  | Some super_res =>
      (upd st c (set_req (super_res ++ flat_map to_req l)), Done)
  | None => (st, NameErr)
  end.

(* decorator.py 155-168 *)
Definition apply_tag (st : table) (c : nat) (l : list targ)
  : table * outcome :=
  match attr k_tags st c with
  | Some super_tags =>
      (upd st c (set_tags (super_tags ++ flat_map to_tag l)), Done)
  | None => (upd st c (set_tags (flat_map to_tag l)), Done)
  end.

Definition apply_dec (st : table) (c : nat) (d : dec) : table * outcome :=
  match check_dec d with
  | Done =>
      if c <? List.length st then
        if is_pm st c then
          match d with
          | Implements p q => apply_impl st c p q
          | Requires l => apply_req st c l
          | Tag l => apply_tag st c l
          end
        else (st, AssertionErr)
      else (st, NameErr)
  | e => (st, e)
  end.

(* ------------------------------------------------------------------ *)
(* Statements and programs                                             *)

(* What the body of a class statement assigns to the four attributes. *)
Record body : Type := mkbody {
  b_proc : option (option nat);
  b_proto : option (option nat);
  b_req : option (list req);
  b_tags : option (list string) }.

Definition empty_body : body := mkbody None None None None.

Inductive stmt : Type :=
| NewClass (bases : list nat) (b : body)
| Decorate (c : nat) (d : dec).

Definition exec (st : table) (s : stmt) : table * outcome :=
  match s with
  | NewClass bases b =>
      if forallb (fun x => x <? List.length st) bases then
        match linearise st (List.length st) bases with
        | Some l =>
            (st ++ [mkcls l (b_proc b) (b_proto b) (b_req b) (b_tags b)], Done)
        | None => (st, TypeErr)
        end
      else (st, NameErr)
  | Decorate c d => apply_dec st c d
  end.

(* any history of statements; exceptions are caught by the caller *)
Fixpoint exec_all (st : table) (l : list stmt) : table :=
  match l with
  | [] => st
  | s :: l' => exec_all (fst (exec st s)) l'
  end.

(* A class statement with its decorators, the lowest one first (Python applies
   them in that order). *)
Record decl : Type := mkdecl {
  d_bases : list nat;
  d_body : body;
  d_decs : list dec }.

Fixpoint apply_decs (st : table) (c : nat) (l : list dec) : option table :=
  match l with
  | [] => Some st
  | d :: l' =>
      match apply_dec st c d with
      | (st', Done) => apply_decs st' c l'
      | _ => None
      end
  end.

Definition run_decl (st : table) (d : decl) : option table :=
  match exec st (NewClass (d_bases d) (d_body d)) with
  | (st', Done) => apply_decs st' (List.length st) (d_decs d)
  | _ => None
  end.

(* a module: class statements one after the other; None: import fails *)
Fixpoint run_module (st : table) (l : list decl) : option table :=
  match l with
  | [] => Some st
  | d :: l' => match run_decl st d with
               | Some st' => run_module st' l'
               | None => None
               end
  end.

(* compiler_graphs.py 779-792: the process models of a process (number p)
   among the classes of a module, in the order of their definition *)
Definition find_models (st : table) (p : nat) : list nat :=
  filter (fun c => is_pm st c &&
                   match attr k_proc st c with
                   | Some (Some q) => p =? q
                   | _ => false
                   end)
         (seq 0 (List.length st)).

(* run_configs.py 411-417, 473-479: "X in pm.required_resources" *)
Definition requires_b (st : table) (c r : nat) : bool :=
  match attr k_req st c with
  | Some l => existsb (fun q => match q with One x => x =? r | Alt _ => false end) l
  | None => false
  end.
