(** Model of the construction of a process model: Vars and ports of a process are turned into initializers, a builder and
    finally the attributes of the process model (/repo/src/lava/magma/compiler/builders/py_builder.py, interfaces.py in the same
    directory, /repo/src/lava/magma/compiler/subcompilers/py/pyproc_compiler.py 118-276, /repo/src/lava/magma/core/model/py/type.py).
    Simplifications: numbers are complex numbers with rational parts (no rounding, NaN or infinity); nested lists are arrays
    already; a string is never converted to a number; CSP ports and transformers are left out (C16, C20, C28). *)
From Coq Require Import List Arith Bool ZArith QArith String.
From Verif Require Import VPorts_Model.
Import ListNotations.
Open Scope nat_scope.

(** ** numpy *)
Record num := { re : Q; im : Q }.
Definition real (q : Q) : num := {| re := q; im := 0 |}.
Definition int (z : Z) : num := real (inject_Z z).
Inductive dtype := DBool | DInt (bits : Z) | DUInt (bits : Z) | DFloat | DComplex.
Definition trunc (q : Q) : Z := Z.quot (Qnum q) (Zpos (Qden q)).
(** conversion on assignment (casting = "unsafe"): towards zero for integers, modulo 2^bits, without the imaginary part *)
Definition cast (d : dtype) (x : num) : num :=
  match d with
  | DBool => int (if Qeq_bool (re x) 0 && Qeq_bool (im x) 0 then 0 else 1)
  | DInt b => int ((trunc (re x) + 2 ^ (b - 1)) mod 2 ^ b - 2 ^ (b - 1))
  | DUInt b => int (trunc (re x) mod 2 ^ b)
  | DFloat => real (re x)
  | DComplex => x
  end.
(** arrays: shape and elements in C order *)
Record arr := { ash : list nat; adat : list num }.
Definition elem (a : arr) (idx : list nat) : num := nth (ravel (ash a) idx) (adat a) (int 0).

(** leading dimensions of length one are dropped while there are more dimensions than the destination has *)
Fixpoint strip (n : nat) (sh : list nat) : list nat :=
  match sh with
  | 1 :: r => if n <? List.length sh then strip n r else sh
  | _ => sh
  end.
(** lengths, last dimension first: equal or one *)
Fixpoint fits (v sh : list nat) : bool :=
  match v, sh with
  | [], _ => true
  | a :: v', b :: sh' => ((a =? b) || (a =? 1)) && fits v' sh'
  | _ :: _, [] => false
  end.
Fixpoint pick (v idx : list nat) : list nat :=
  match v, idx with
  | d :: v', i :: idx' => (if d =? 1 then 0 else i) :: pick v' idx'
  | _, _ => []
  end.
Definition bindex (v idx : list nat) : list nat := pick v (skipn (List.length idx - List.length v) idx).
(** var = np.ndarray(sh, d); var[:] = a.  An array without dimensions cannot be indexed (IndexError), and shapes that do not fit
    raise ValueError *)
Definition assign (sh : list nat) (d : dtype) (a : arr) : option arr :=
  match sh with
  | [] => None
  | _ => let v := strip (List.length sh) (ash a) in
         if fits (rev v) (rev sh)
         then Some {| ash := sh; adat := map (fun idx => cast d (elem {| ash := v; adat := adat a |} (bindex v idx))) (indices sh) |}
         else None
  end.

(** ** Processes and process models *)
(** Var(shape, init): a Python int, another number / list / tuple / ndarray, a string, a csr_matrix *)
Inductive init := IInt (z : Z) | IArr (a : arr) | IStr (s : string) | ISparse (a : arr).
Record var := { vname : string; vshape : list nat; vinit : init; vid : Z }.
(** InPort, OutPort, RefPort, VarPort (is a RefPort connected to it?); the connection configs given by the user, in order *)
Inductive pkind := KIn | KOut | KRef | KVar (connected : bool).
Record port := { pname : string; kind : pkind; configs : list nat }.
Record process := { pvars : list var; in_ports : list port; out_ports : list port; ref_ports : list port; var_ports : list port }.
(** LavaPyType: what its cls is a subclass of *)
Inductive pycls := CArray | CNumber (* int, float *) | CStr | CSparse | CPyIn | CPyOut | CPyRef | COther.
Record ltype := { cls : pycls; d_type : dtype; precision : option Z }.
(** an attribute of the class of the process model *)
Inductive member := MType (t : ltype) | MOther.
Definition pmclass := list (string * member).
Fixpoint lookup {A} (n : string) (l : list (string * A)) : option A :=
  match l with
  | [] => None
  | (m, a) :: r => if String.eqb n m then Some a else lookup n r
  end.
Definition has {A} (n : string) (l : list (string * A)) : bool := match lookup n l with Some _ => true | None => false end.

(** ** The builder *)
(** _create_outport_initializers (pyproc_compiler.py 214-234): the connection config of the k-th OutPort *)
Fixpoint out_configs (k : nat) (ps : list port) : option (list (string * option nat)) :=
  match ps with
  | [] => Some []
  | p :: r => match (match configs p with [] => Some None | l => match nth_error l k with Some c => Some (Some c) | None => None (* IndexError *) end end),
                    out_configs (S k) r with
              | Some c, Some rest => Some ((pname p, c) :: rest)
              | _, _ => None
              end
  end.
(** _create_builder_for_process 118-151 with _check_members_exist (interfaces.py 79-102) and check_all_vars_and_ports_set
    (py_builder.py 74-95); None: an exception.  _check_not_assigned_yet never fails as the builder is new and the names of the
    members of a process are distinct *)
Definition create_builder (C : pmclass) (P : process) : option (list (string * option nat)) :=
  match out_configs 0 (out_ports P) with
  | None => None
  | Some oc =>
      let names := map vname (pvars P) ++ map pname (in_ports P ++ out_ports P) ++ map pname (ref_ports P) in
      let all := names ++ map pname (var_ports P) in
      if forallb (fun n => has n C) names && forallb (fun na => match snd na with MType _ => existsb (String.eqb (fst na)) all | MOther => true end) C
      then Some oc else None
  end.

(** attributes of the built process model *)
Inductive attr := AArr (d : dtype) (a : arr) | AInit (i : init) | ASparseInt (sh : list nat) (d : dtype) (z : Z) | APrec (p : option Z) | APort (k : pycls) (p : port) | AVarPort (p : port) | ABase (n : nat).
Record pm := { attrs : list (string * attr); id_map : list (Z * string) }.
Definition setattr (n : string) (a : attr) (m : pm) : pm := {| attrs := (n, a) :: attrs m; id_map := id_map m |}.
Definition getattr (n : string) (m : pm) : option attr := lookup n (attrs m).

(** build 244-427 *)
(** PyPorts 276-307: the class alone decides what is built *)
Definition build_io (C : pmclass) (p : port) (m : pm) : option pm :=
  match lookup (pname p) C with
  | Some (MType t) => match cls t with CPyIn | CPyOut => Some (setattr (pname p) (APort (cls t) p) m) | _ => None end
  | _ => None
  end.
(** RefPorts 309-342 *)
Definition build_ref (C : pmclass) (p : port) (m : pm) : option pm :=
  match lookup (pname p) C with
  | Some (MType t) => match cls t with CPyRef => Some (setattr (pname p) (APort CPyRef p) m) | _ => None end
  | _ => None
  end.
(** VarPorts 344-385: skipped if there is no connection *)
Definition build_varport (p : port) (m : pm) : option pm :=
  match kind p with KVar false => Some m | _ => Some (setattr (pname p) (AVarPort p) m) end.
(** the value of a Var 398-418 *)
Definition var_value (t : ltype) (v : var) : option attr :=
  match cls t with
  | CArray => match vinit v with
              | IInt z => match assign (vshape v) (d_type t) {| ash := []; adat := [int z] |} with Some a => Some (AArr (d_type t) a) | None => None end
              | IArr a0 => match assign (vshape v) (d_type t) a0 with Some a => Some (AArr (d_type t) a) | None => None end
              | _ => None
              end
  | CNumber | CStr => Some (AInit (vinit v))
  | CSparse => match vinit v with
               | IInt z => match vshape v with [_; _] => Some (ASparseInt (vshape v) (d_type t) z) | _ => None end
               | i => Some (AInit i)
               end
  | _ => None                                (* NotImplementedError *)
  end.
Definition prec_name (n : string) : string := ("_" ++ n ++ "_p")%string.
(** Vars 397-425 *)
Definition build_var (C : pmclass) (v : var) (m : pm) : option pm :=
  match lookup (vname v) C with
  | Some (MType t) =>
      match var_value t v with
      | Some a => let m1 := setattr (prec_name (vname v)) (APrec (precision t)) (setattr (vname v) a m) in
                  Some {| attrs := attrs m1; id_map := (vid v, vname v) :: id_map m1 |}
      | None => None
      end
  | _ => None
  end.
Fixpoint build_all {A} (f : A -> pm -> option pm) (l : list A) (m : pm) : option pm :=
  match l with
  | [] => Some m
  | x :: r => match f x m with Some m1 => build_all f r m1 | None => None end
  end.
(** [base]: the attributes that the constructor of the process model sets *)
Definition build (C : pmclass) (P : process) (base : list (string * attr)) : option pm :=
  match build_all (build_io C) (in_ports P ++ out_ports P) {| attrs := base; id_map := [] |} with
  | None => None
  | Some m1 => match build_all (build_ref C) (ref_ports P) m1 with
               | None => None
               | Some m2 => match build_all build_varport (var_ports P) m2 with
                            | None => None
                            | Some m3 => build_all (build_var C) (pvars P) m3
                            end
               end
  end.
(** compilation and start of the process *)
Definition construct (C : pmclass) (P : process) (base : list (string * attr)) : option pm :=
  match create_builder C P with Some _ => build C P base | None => None end.
(** get_var of the process model (model.py 109-140) through var_id_to_var_map *)
Definition read (id : Z) (m : pm) : option attr :=
  match find (fun x => (fst x =? id)%Z) (id_map m) with Some (_, n) => getattr n m | None => None end.
(** Var.get() (variable.py 166-183): without a runtime, the initial value as it was given *)
Definition var_get (v : var) (running : option pm) : option attr :=
  match running with None => Some (AInit (vinit v)) | Some m => read (vid v) m end.
