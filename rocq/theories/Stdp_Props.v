(** C79: the predefined learning rules STDPLoihi and RewardModulatedSTDP do what their parameters say, up to the rounding
    of the parameters to mantissa * 2^exponent. *)
From Coq Require Import ZArith QArith Qpower Qround Qabs List Bool Ascii String Lia Lqa.
From Verif Require Import NpInt Bits_Model Learning_Model Learning_Props Rule_Model Rule_Spec Rule_Proofs Rule_Props Rule_Props2
  RuleApply_Props Stdp_Model.
Import ListNotations.
Open Scope Z_scope.

(** ** Specification *)
(** the parameter [x] acts as [m * 2 ^ e]: m is x without its fraction (at least 1 in size), and 2^e is the power of two that
    makes m * 2^e nearest to x in proportion *)
Definition acts_as (x : Q) (m e : Z) : Prop :=
  ((x == 0)%Q /\ m = 0 /\ e = 0) \/
  (~ (x == 0)%Q /\ m = Z.sgn (Qnum x) * Z.max 1 (Qfloor (Qabs x)) /\
   let v := (inject_Z m * Qpower 2 e)%Q in (v * v <= 2 * (x * x) /\ x * x < 2 * (v * v))%Q).
(** the value of [m * 2 ^ e] *)
Definition two_exp (m e : Z) : Q := (inject_Z m * Qpower 2 e)%Q.

(** ** Decimal numerals *)
Lemma digit_char_ok d : 0 <= d < 10 ->
  In (digit_char d) (list_ascii_of_string "0123456789") /\ digit (digit_char d) = d /\ (digit_char d = "0"%char -> d = 0).
Proof.
  intro H. assert (d = 0 \/ d = 1 \/ d = 2 \/ d = 3 \/ d = 4 \/ d = 5 \/ d = 6 \/ d = 7 \/ d = 8 \/ d = 9) as C by lia.
  repeat (destruct C as [->|C]); [..|subst d]; (split; [cbn; tauto|split; [reflexivity|intro; first [reflexivity|discriminate]]]).
Qed.
Lemma numeral_value_snoc n c : numeral_value (n ++ [c]) = 10 * numeral_value n + digit c.
Proof.
  induction n as [|a n IH]; [cbn [app numeral_value List.length]; change (Z.of_nat 0) with 0; rewrite Z.pow_0_r; lia|].
  cbn [app numeral_value]. rewrite IH, app_length. cbn [List.length].
  replace (Z.of_nat (List.length n + 1)) with (Z.succ (Z.of_nat (List.length n))) by lia. rewrite Z.pow_succ_r by lia. ring.
Qed.
Lemma decimal_ok k : forall z, 0 <= z < 2 ^ Z.of_nat k -> (0 < k)%nat ->
  let n := decimal k z in
  n <> [] /\ Forall (fun c => In c (list_ascii_of_string "0123456789")) n /\ (z = 0 /\ n = ["0"%char] \/ 0 < z /\ hd "0"%char n <> "0"%char) /\
  numeral_value n = z.
Proof.
  induction k as [|k IH]; intros z Hz Hk; [lia|]. cbn zeta. cbn [decimal]. destruct (z <? 10) eqn:E.
  - apply Z.ltb_lt in E. destruct (digit_char_ok z ltac:(lia)) as (D1 & D2 & D3). split; [discriminate|]. split; [constructor; [exact D1|constructor]|]. split.
    + destruct (Z.eq_dec z 0) as [->|]; [left; split; reflexivity|right]. split; [lia|]. cbn [hd]. intro F. apply D3 in F. lia.
    + cbn [numeral_value List.length]. change (Z.of_nat 0) with 0. rewrite Z.pow_0_r. lia.
  - apply Z.ltb_ge in E. assert (0 < k)%nat as Hk'.
    { destruct k; [|lia]. change (2 ^ Z.of_nat 1) with 2 in Hz. lia. }
    rewrite Nat2Z.inj_succ, Z.pow_succ_r in Hz by lia.
    assert (0 < z / 10 < 2 ^ Z.of_nat k) as Hd.
    { split; [apply Z.div_str_pos; lia|]. apply Z.div_lt_upper_bound; lia. }
    destruct (IH (z / 10) ltac:(lia) Hk') as (I1 & I2 & I3 & I4). destruct I3 as [[I3 _]|[_ I3]]; [lia|].
    destruct (digit_char_ok (z mod 10) (Z.mod_pos_bound z 10 ltac:(lia))) as (D1 & D2 & D3).
    split; [intro F; apply app_eq_nil in F; destruct F; congruence|]. split; [apply Forall_app; split; [exact I2|constructor; [exact D1|constructor]]|]. split.
    + right. split; [lia|]. destruct (decimal k (z / 10)) as [|c r]; [congruence|exact I3].
    + rewrite numeral_value_snoc, I4, D2. pose proof (Z.div_mod z 10). lia.
Qed.
Definition int_sign (z : Z) : sign := if z <? 0 then Minus else NoSign.
Definition int_numeral (z : Z) : numeral := decimal (S (Z.to_nat (Z.log2 (Z.abs z)))) (Z.abs z).
Lemma log2_fuel z : 0 <= z < 2 ^ Z.of_nat (S (Z.to_nat (Z.log2 z))) \/ z < 0.
Proof.
  destruct (Z_lt_le_dec z 0) as [|H]; [now right|left]. split; [exact H|].
  rewrite Nat2Z.inj_succ, Z2Nat.id by apply Z.log2_nonneg. destruct (Z.eq_dec z 0) as [->|]; [reflexivity|]. apply Z.log2_spec. lia.
Qed.
Lemma int_numeral_ok z : is_numeral (int_numeral z) /\ numeral_value (int_numeral z) = Z.abs z.
Proof.
  unfold int_numeral. destruct (log2_fuel (Z.abs z)) as [H|]; [|lia].
  destruct (decimal_ok _ (Z.abs z) H ltac:(lia)) as (H1 & H2 & H3 & H4). split; [|exact H4]. split; [exact H1|]. split; [exact H2|].
  destruct H3 as [[_ H3]|[_ H3]]; [left; rewrite H3; repeat constructor|right; exact H3].
Qed.
Lemma show_int_eq z : show_int z = show_sign (int_sign z) ++ int_numeral z.
Proof. unfold show_int, int_sign. destruct (z <? 0); reflexivity. Qed.
Lemma int_sign_value z : sign_value (int_sign z) * Z.abs z = z.
Proof. unfold int_sign. destruct (Z.ltb_spec z 0); cbn [sign_value]; lia. Qed.

(** ** Spaces *)
Definition nospace (c : ascii) : bool := negb (Ascii.eqb " " c).
Lemma nospace_id l : Forall (fun c => c <> " "%char) l -> filter nospace l = l.
Proof.
  induction 1 as [|c l Hc _ IH]; [reflexivity|]. cbn [filter]. unfold nospace at 1. destruct (Ascii.eqb_spec " " c); [congruence|].
  cbn [negb]. now rewrite IH.
Qed.
Lemma numeral_nospace n : is_numeral n -> Forall (fun c => c <> " "%char) n.
Proof.
  intros (_ & H & _). eapply Forall_impl; [|exact H]. intros c Hc ->. cbn in Hc.
  repeat (destruct Hc as [Hc|Hc]; [discriminate|]). exact Hc.
Qed.
Lemma show_int_nospace z : filter nospace (show_int z) = show_sign (int_sign z) ++ int_numeral z.
Proof.
  rewrite show_int_eq. apply nospace_id, Forall_app. split; [unfold int_sign; destruct (z <? 0); repeat constructor; discriminate|].
  apply numeral_nospace, int_numeral_ok.
Qed.
Lemma filter_cons_space {A} (f : A -> bool) c l : filter f (c :: l) = (if f c then [c] else []) ++ filter f l.
Proof. cbn [filter]. destruct (f c); reflexivity. Qed.

(** ** Logarithms *)
Lemma pow2_pos k : (0 < Qpower 2 k)%Q.
Proof. apply Qpower_0_lt. reflexivity. Qed.
Lemma pow2_add a b : (Qpower 2 (a + b) == Qpower 2 a * Qpower 2 b)%Q.
Proof. apply Qpower_plus. intro H. discriminate H. Qed.
Lemma pow2_succ k : (Qpower 2 (k + 1) == Qpower 2 k * 2)%Q.
Proof. rewrite pow2_add. reflexivity. Qed.
Lemma pow2_Z k : 0 <= k -> (Qpower 2 k == inject_Z (2 ^ k))%Q.
Proof. intro H. rewrite Zpower_Qpower by exact H. reflexivity. Qed.
Lemma floor_log2_ok q : (0 < q)%Q -> (Qpower 2 (floor_log2 q) <= q)%Q /\ (q < Qpower 2 (floor_log2 q + 1))%Q.
Proof.
  intro Hq. destruct q as [n d]. assert (0 < n) as Hn by (unfold Qlt in Hq; cbn in Hq; lia).
  unfold floor_log2. cbn [Qnum Qden]. set (a := Z.log2 n). set (b := Z.log2 (Z.pos d)). pose proof (Z.log2_spec n Hn) as [A1 A2].
  pose proof (Z.log2_spec (Z.pos d) ltac:(lia)) as [B1 B2]. fold a in A1, A2. fold b in B1, B2.
  pose proof (Z.log2_nonneg n) as Ha. pose proof (Z.log2_nonneg (Z.pos d)) as Hb. fold a in Ha. fold b in Hb.
  assert (n # d == inject_Z n / inject_Z (Z.pos d))%Q as E by (rewrite (Qmake_Qdiv n d); reflexivity).
  assert (0 < inject_Z (Z.pos d))%Q as Hd by reflexivity.
  assert (forall k, Qpower 2 k * Qpower 2 b == Qpower 2 (k + b))%Q as P by (intro; symmetry; apply pow2_add).
  assert (inject_Z n < Qpower 2 (a + 1))%Q as A2' by (rewrite pow2_Z by lia; rewrite <- Zlt_Qlt; exact A2).
  assert (Qpower 2 a <= inject_Z n)%Q as A1' by (rewrite pow2_Z by lia; rewrite <- Zle_Qle; exact A1).
  assert (inject_Z (Z.pos d) < Qpower 2 (b + 1))%Q as B2' by (rewrite pow2_Z by lia; rewrite <- Zlt_Qlt; exact B2).
  assert (Qpower 2 b <= inject_Z (Z.pos d))%Q as B1' by (rewrite pow2_Z by lia; rewrite <- Zle_Qle; exact B1).
  destruct (Qle_bool (Qpower 2 (a - b)) (n # d)) eqn:C.
  - apply Qle_bool_iff in C. split; [exact C|]. rewrite E. apply Qlt_shift_div_r; [exact Hd|].
    apply (Qlt_le_trans _ _ _ A2'). replace (a + 1) with (a - b + 1 + b) by lia. rewrite pow2_add.
    apply Qmult_le_l; [apply pow2_pos|exact B1'].
  - assert (n # d < Qpower 2 (a - b))%Q as C' by (apply Qnot_le_lt; intro F; apply Qle_bool_iff in F; congruence). split.
    + rewrite E. apply Qle_shift_div_l; [exact Hd|]. apply (Qle_trans _ (Qpower 2 (a - b - 1) * Qpower 2 (b + 1))).
      * apply Qmult_le_l; [apply pow2_pos|]. apply Qlt_le_weak, B2'.
      * rewrite <- pow2_add. replace (a - b - 1 + (b + 1)) with a by lia. exact A1'.
    + replace (a - b - 1 + 1) with (a - b) by lia. exact C'.
Qed.
Lemma pow2_le a b : a <= b -> (Qpower 2 a <= Qpower 2 b)%Q.
Proof. intro H. apply Qpower_le_compat_l; [exact H|]. vm_compute. discriminate. Qed.
Lemma round_log2_ok r : (0 < r)%Q ->
  (Qpower 2 (2 * round_log2 r - 1) <= r * r /\ r * r < Qpower 2 (2 * round_log2 r + 1))%Q.
Proof.
  intro H. assert (0 < r * r)%Q as H2 by nra. destruct (floor_log2_ok _ H2) as [F1 F2]. unfold round_log2.
  set (k := floor_log2 (r * r)) in *. pose proof (Z.div_mod (k + 1) 2 ltac:(lia)). pose proof (Z.mod_pos_bound (k + 1) 2 ltac:(lia)). split.
  - eapply Qle_trans; [|exact F1]. apply pow2_le. lia.
  - eapply Qlt_le_trans; [exact F2|]. apply pow2_le. lia.
Qed.

(** ** The constants of a rule *)
Definition const_atom (a : atom) : Prop :=
  match a with ALit l => wf_lit l | ABracket (InLit _ l) => wf_lit l | _ => False end.
Definition mants (l : list atom) : Z := fold_right (fun a m => fst (atom_scale a) * m) 1 l.
Definition exps (l : list atom) : Z := fold_right (fun a e => snd (atom_scale a) + e) 0 l.
Lemma mants_app l r : mants (l ++ r) = mants l * mants r.
Proof. induction l as [|a l IH]; [change (mants r = 1 * mants r); lia|cbn [app mants fold_right]]. fold (mants (l ++ r)) (mants l). rewrite IH. ring. Qed.
Lemma exps_app l r : exps (l ++ r) = exps l + exps r.
Proof. induction l as [|a l IH]; [change (exps r = 0 + exps r); lia|cbn [app exps fold_right]]. fold (exps (l ++ r)) (exps l). rewrite IH. ring. Qed.
Lemma qprod_app l r : (qprod (l ++ r) == qprod l * qprod r)%Q.
Proof. induction l as [|a l IH]; [change (qprod r == 1 * qprod r)%Q; ring|cbn [app qprod fold_right]]. fold (qprod (l ++ r)) (qprod l). rewrite IH. ring. Qed.
Lemma const_value rho e l : Forall const_atom l -> (qprod (map (atom_value rho e) l) == two_exp (mants l) (exps l))%Q.
Proof.
  unfold two_exp. induction 1 as [|a l Ha _ IH]; [cbn; ring|]. cbn [map qprod fold_right mants exps]. fold (mants l) (exps l).
  fold (qprod (map (atom_value rho e) l)). rewrite IH, pow2_add, inject_Z_mult.
  assert (atom_value rho e a == inject_Z (fst (atom_scale a)) * Qpower 2 (snd (atom_scale a)))%Q as ->; [|ring].
  destruct a as [| |c|[| s c| |]|]; cbn [const_atom] in Ha; try contradiction; cbn [atom_value inside_value atom_scale fst snd]; unfold signed, lit_value.
  - reflexivity.
  - rewrite inject_Z_mult. ring.
Qed.
Lemma const_dependency l r : Forall const_atom l -> dependency (l ++ r) = dependency r.
Proof. induction 1 as [|a l Ha _ IH]; [reflexivity|]. destruct a; cbn [const_atom] in Ha; try contradiction; exact IH. Qed.
Lemma const_periods l r : Forall const_atom l -> periods (l ++ r) = periods r.
Proof. induction 1 as [|a l Ha _ IH]; [reflexivity|]. destruct a; cbn [const_atom] in Ha; try contradiction; exact IH. Qed.
Lemma const_term_bits l r : Forall const_atom l -> term_bits (l ++ r) = term_bits r.
Proof.
  induction 1 as [|a l Ha _ IH]; [reflexivity|]. destruct a as [| |c|[| s c| |]|]; cbn [const_atom] in Ha; try contradiction;
    cbn [app term_bits atom_bits]; rewrite IH; lia.
Qed.
Lemma const_wf l : Forall const_atom l -> Forall wf_atom l.
Proof. apply Forall_impl. intros [| | |[| | |]|]; cbn; tauto. Qed.
Lemma const_whole l : Forall const_atom l -> Forall whole_atom l.
Proof. apply Forall_impl. intros [| | |[| | |]|]; cbn; tauto. Qed.
Lemma const_fits rho e l : Forall const_atom l -> Forall (fits rho e) l.
Proof. apply Forall_impl. intros [| | |[| | |]|]; cbn; tauto. Qed.
Lemma show_atoms_app l r : l <> [] -> r <> [] -> show_atoms (l ++ r) = show_atoms l ++ "*"%char :: show_atoms r.
Proof.
  intros Hl Hr. induction l as [|a l IH]; [congruence|]. destruct l as [|b l].
  - cbn [app]. destruct r as [|c r]; [congruence|]. reflexivity.
  - change ((a :: b :: l) ++ r) with (a :: (b :: l) ++ r). change (show_atoms (a :: b :: l)) with (show_atom a ++ "*"%char :: show_atoms (b :: l)).
    rewrite <- app_assoc. cbn [app]. rewrite <- IH by discriminate. reflexivity.
Qed.

(** ** The literal of a parameter *)
Definition lit_m (x : Q) : Z := if Qeq_bool x 0 then 0 else qsign x * mantissa x.
Definition lit_e (x : Q) : Z := if Qeq_bool x 0 then 0 else if Qeq_bool (remainder x) 1 then 0 else round_log2 (remainder x).
Definition lit_atoms (x : Q) : list atom :=
  if Qeq_bool x 0 then [ALit (Plain ["0"%char])]
  else ABracket (InLit (int_sign (lit_m x)) (Plain (int_numeral (lit_m x))))
       :: (if Qeq_bool (remainder x) 1 then [] else [ALit (Pow (int_sign (lit_e x)) (int_numeral (lit_e x)))]).
Lemma lit_text x : filter nospace (float_to_literal x) = show_atoms (lit_atoms x).
Proof.
  unfold float_to_literal, lit_atoms, lit_m, lit_e. destruct (Qeq_bool x 0); [reflexivity|]. destruct (Qeq_bool (remainder x) 1).
  - cbn [show_atoms show_atom show_inside show_lit]. rewrite filter_cons_space, filter_app, show_int_nospace. reflexivity.
  - rewrite filter_app, filter_cons_space, !filter_app, !show_int_nospace.
    cbn [show_atoms show_atom show_inside show_lit]. cbn [filter list_ascii_of_string]. unfold nospace. cbn [Ascii.eqb Bool.eqb negb app].
    rewrite <- !app_assoc. reflexivity.
Qed.
Lemma lit_const_atoms x : Forall const_atom (lit_atoms x) /\ lit_atoms x <> [] /\ mants (lit_atoms x) = lit_m x /\ exps (lit_atoms x) = lit_e x.
Proof.
  unfold lit_atoms. destruct (Qeq_bool x 0) eqn:E.
  - split; [|split; [discriminate|]].
    + constructor; [|constructor]. cbn. split; [discriminate|]. split; [constructor; [cbn; tauto|constructor]|left; repeat constructor].
    + unfold lit_m, lit_e. rewrite E. split; reflexivity.
  - assert (V : forall z, sign_value (int_sign z) * numeral_value (int_numeral z) = z).
    { intro z. rewrite (proj2 (int_numeral_ok z)). apply int_sign_value. }
    destruct (Qeq_bool (remainder x) 1) eqn:R.
    + split; [|split; [discriminate|]].
      * constructor; [|constructor]. apply int_numeral_ok.
      * cbn [mants exps fold_right atom_scale fst snd lit_mant lit_exp]. rewrite V. split; [lia|]. unfold lit_e. rewrite E, R. reflexivity.
    + split; [|split; [discriminate|]].
      * constructor; [|constructor; [|constructor]]; apply int_numeral_ok.
      * cbn [mants exps fold_right atom_scale fst snd lit_mant lit_exp]. rewrite !V. split; lia.
Qed.
Lemma Qeq_bool_false x y : Qeq_bool x y = false -> ~ (x == y)%Q.
Proof. intros H E. apply Qeq_bool_iff in E. congruence. Qed.
Lemma lit_acts x : acts_as x (lit_m x) (lit_e x).
Proof.
  unfold acts_as, lit_m, lit_e. destruct (Qeq_bool x 0) eqn:E; [left; split; [now apply Qeq_bool_iff|split; reflexivity]|].
  right. apply Qeq_bool_false in E. split; [exact E|]. split; [unfold qsign, mantissa; now rewrite Z.max_comm|]. cbv zeta.
  assert (1 <= mantissa x) as Hm by (unfold mantissa; lia).
  assert (0 < inject_Z (mantissa x))%Q as Hm' by (change 0%Q with (inject_Z 0); rewrite <- Zlt_Qlt; lia).
  assert (qsign x * qsign x = 1) as Hs.
  { unfold qsign. destruct x as [n d]. cbn [Qnum]. destruct n; [|reflexivity..]. exfalso. apply E. reflexivity. }
  assert (Qabs x * Qabs x == x * x)%Q as Ha by (destruct (Qlt_le_dec x 0); [rewrite Qabs_neg by lra|rewrite Qabs_pos by lra]; ring).
  assert (0 < Qabs x)%Q as Hp.
  { destruct (Qlt_le_dec x 0); [rewrite Qabs_neg by lra; lra|rewrite Qabs_pos by lra]. destruct (Qle_lt_or_eq 0 x); [lra|lra|]. exfalso. apply E. symmetry. lra. }
  set (r := remainder x).
  assert (Qabs x == inject_Z (mantissa x) * r)%Q as Hr by (unfold r, remainder; field; lra).
  assert (forall e, (inject_Z (qsign x * mantissa x) * Qpower 2 e) * (inject_Z (qsign x * mantissa x) * Qpower 2 e) ==
                    (inject_Z (mantissa x) * inject_Z (mantissa x)) * (Qpower 2 e * Qpower 2 e))%Q as Sq.
  { intro e. rewrite !inject_Z_mult.
    setoid_replace (inject_Z (qsign x) * inject_Z (mantissa x) * Qpower 2 e * (inject_Z (qsign x) * inject_Z (mantissa x) * Qpower 2 e))%Q
      with (inject_Z (qsign x) * inject_Z (qsign x) * (inject_Z (mantissa x) * inject_Z (mantissa x) * (Qpower 2 e * Qpower 2 e)))%Q by ring.
    rewrite <- inject_Z_mult, Hs. change (inject_Z 1) with 1%Q. ring. }
  rewrite !Sq, <- Ha, Hr. set (m := inject_Z (mantissa x)) in *.
  destruct (Qeq_bool r 1) eqn:R.
  - apply Qeq_bool_iff in R. rewrite R. change (Qpower 2 0) with 1%Q. nra.
  - assert (0 < r)%Q as Pr by nra. destruct (round_log2_ok r Pr) as [L1 L2]. set (e := round_log2 r) in *.
    assert (Qpower 2 e * Qpower 2 e == Qpower 2 (2 * e - 1) * 2)%Q as E1.
    { rewrite <- pow2_add, <- pow2_succ. now replace (2 * e - 1 + 1) with (e + e) by lia. }
    assert (Qpower 2 (2 * e + 1) == Qpower 2 e * Qpower 2 e * 2)%Q as E2.
    { rewrite <- pow2_add, <- pow2_succ. now replace (2 * e + 1) with (e + e + 1) by lia. }
    rewrite E1 in *. rewrite E2 in L2. set (p := Qpower 2 (2 * e - 1)) in *. assert (0 < m * m)%Q as Mm by nra.
    split.
    + setoid_replace (2 * (m * r * (m * r)))%Q with (m * m * (r * r * 2))%Q by ring. apply Qmult_le_l; [exact Mm|]. apply Qmult_le_r; [reflexivity|exact L1].
    + setoid_replace (m * r * (m * r))%Q with (m * m * (r * r))%Q by ring. setoid_replace (2 * (m * m * (p * 2)))%Q with (m * m * (p * 2 * 2))%Q by ring.
      apply Qmult_lt_l; [exact Mm|exact L2].
Qed.
Lemma acts_unique x m e m' e' : acts_as x m e -> acts_as x m' e' -> m = m' /\ e = e'.
Proof.
  intros [(H0 & Hm & He)|(H0 & Hm & H1)] [(H0' & Hm' & He')|(H0' & Hm' & H1')]; try contradiction; [subst; split; reflexivity|].
  split; [congruence|]. rewrite <- Hm in Hm'. subst m'. cbv zeta in H1, H1'. destruct H1 as [A1 A2], H1' as [B1 B2].
  assert (forall a b, a < b -> (inject_Z m * Qpower 2 b * (inject_Z m * Qpower 2 b) <= 2 * (x * x))%Q ->
     (x * x < 2 * (inject_Z m * Qpower 2 a * (inject_Z m * Qpower 2 a)))%Q -> False) as K.
  { intros a b Hab P1 P2. assert (Qpower 2 (a + 1) <= Qpower 2 b)%Q as P3 by (apply pow2_le; lia).
    rewrite pow2_add in P3. change (Qpower 2 1) with 2%Q in P3. pose proof (pow2_pos a). set (p := Qpower 2 a) in *. set (q := Qpower 2 b) in *.
    assert (4 * (p * p) <= q * q)%Q as P4 by nra. assert (0 <= inject_Z m * inject_Z m)%Q as P5 by nra.
    assert (inject_Z m * inject_Z m * (4 * (p * p)) <= inject_Z m * inject_Z m * (q * q))%Q as P6.
    { rewrite (Qmult_comm _ (4 * (p * p))), (Qmult_comm _ (q * q)). apply Qmult_le_compat_r; assumption. }
    nra. }
  destruct (Z.lt_trichotomy e e') as [C|[C|C]]; [exfalso; eapply K; eauto|exact C|exfalso; eapply K; eauto].
Qed.

(** ** How parameters are rounded *)
(** C79: every parameter acts as exactly one number, of the same sign, between x/sqrt(2) and x*sqrt(2) in size; whole numbers
    and powers of two act as themselves, larger parameters lose their fraction *)
Theorem parameter_acts : forall x, exists m e, acts_as x m e /\
  (forall m' e', acts_as x m' e' -> m' = m /\ e' = e) /\
  let v := two_exp m e in
  ((v == 0 <-> x == 0) /\ 0 <= v * x /\ v * v <= 2 * (x * x) /\ x * x <= 2 * (v * v))%Q /\
  (forall z, (x == inject_Z z)%Q -> (v == x)%Q) /\
  (forall k, (x == Qpower 2 k \/ x == - Qpower 2 k)%Q -> (v == x)%Q) /\
  ((3 <= Qabs x)%Q -> (Qabs v == inject_Z (Qfloor (Qabs x)))%Q).
Proof.
  intro x. exists (lit_m x), (lit_e x). pose proof (lit_acts x) as A. split; [exact A|].
  split; [intros m' e' A'; destruct (acts_unique _ _ _ _ _ A A'); split; congruence|]. cbv zeta.
  destruct A as [(Z0 & -> & ->)|(NZ & Em & Hv)].
  - unfold two_exp. change (inject_Z 0 * Qpower 2 0)%Q with 0%Q. split; [|split; [|split]].
    + rewrite Z0. split; [split; reflexivity|]. split; [|split]; unfold Qle; cbn; lia.
    + intros z _. now rewrite Z0.
    + intros k _. now rewrite Z0.
    + rewrite Z0. change (Qabs 0) with 0%Q. intro H. exfalso. apply (Qlt_not_le 0 3); [reflexivity|exact H].
  - set (e := lit_e x) in *. set (m := lit_m x) in *. cbv zeta in Hv. fold (two_exp m e) in Hv. set (v := two_exp m e) in *. destruct Hv as [H1 H2].
    set (M := Z.max 1 (Qfloor (Qabs x))) in *. assert (1 <= M) as HM by (unfold M; lia).
    assert (0 < inject_Z M)%Q as HM' by (change 0%Q with (inject_Z 0); rewrite <- Zlt_Qlt; lia).
    pose proof (pow2_pos e) as Pe.
    assert ((0 < x /\ v == inject_Z M * Qpower 2 e) \/ (x < 0 /\ v == - (inject_Z M * Qpower 2 e)))%Q as C.
    { unfold v, two_exp. rewrite Em. destruct (Qlt_le_dec x 0) as [L|L]; [right|left].
      - split; [exact L|]. destruct x as [n d]. unfold Qlt in L. cbn in L. cbn [Qnum]. rewrite Z.sgn_neg by lia. rewrite inject_Z_mult. change (inject_Z (-1)) with (-1)%Q. ring.
      - assert (0 < x)%Q as L' by (destruct (Qle_lt_or_eq 0 x L) as [?|F]; [assumption|exfalso; apply NZ; symmetry; exact F]).
        split; [exact L'|]. destruct x as [n d]. unfold Qlt in L'. cbn in L'. cbn [Qnum]. rewrite Z.sgn_pos by lia. rewrite Z.mul_1_l. reflexivity. }
    assert (Qabs v == inject_Z M * Qpower 2 e)%Q as Av.
    { destruct C as [[L E]|[L E]]; rewrite E; [rewrite Qabs_pos by nra; ring|rewrite Qabs_neg by nra; ring]. }
    assert (K : forall y, ~ (y == 0)%Q -> acts_as x (Z.sgn (Qnum x) * M) 0 -> (x == y)%Q -> (Qabs x == inject_Z M)%Q -> (v == x)%Q).
    { intros y Hy A' Ey Ea. destruct (acts_unique x _ _ _ _ (lit_acts x) A') as [_ E0]. fold e in E0. rewrite E0 in *. change (Qpower 2 0) with 1%Q in *.
      destruct C as [[L E]|[L E]]; rewrite E; [rewrite Qabs_pos in Ea by lra|rewrite Qabs_neg in Ea by lra]; lra. }
    assert (U : forall e', (Qabs x == inject_Z M * Qpower 2 e')%Q -> (v == x)%Q).
    { intros e' Ea. pose proof (pow2_pos e') as P'. assert (0 < inject_Z M * Qpower 2 e')%Q as PP by nra.
      assert (x * x == inject_Z M * Qpower 2 e' * (inject_Z M * Qpower 2 e'))%Q as Sx.
      { rewrite <- Ea. destruct (Qlt_le_dec x 0); [rewrite Qabs_neg by lra|rewrite Qabs_pos by lra]; ring. }
      assert (e = e') as Ee.
      { assert (acts_as x m e') as A'.
        { right. split; [exact NZ|]. split; [exact Em|]. cbv zeta.
          assert (inject_Z m * Qpower 2 e' * (inject_Z m * Qpower 2 e') == x * x)%Q as ->; [|nra].
          rewrite Sx. assert (inject_Z m * inject_Z m == inject_Z M * inject_Z M)%Q as Sm.
          { rewrite <- !inject_Z_mult. rewrite Em. assert (Z.sgn (Qnum x) * Z.sgn (Qnum x) = 1) as S1.
            { destruct x as [n d]. cbn [Qnum]. destruct n; [|reflexivity..]. exfalso. apply NZ. reflexivity. }
            replace (Z.sgn (Qnum x) * M * (Z.sgn (Qnum x) * M)) with (Z.sgn (Qnum x) * Z.sgn (Qnum x) * (M * M)) by ring. rewrite S1, Z.mul_1_l. reflexivity. }
          setoid_replace (inject_Z m * Qpower 2 e' * (inject_Z m * Qpower 2 e'))%Q with (inject_Z m * inject_Z m * (Qpower 2 e' * Qpower 2 e'))%Q by ring.
          rewrite Sm. ring. }
        destruct (acts_unique x _ _ _ _ (lit_acts x) A') as [_ E0]. exact E0. }
      rewrite Ee in C. destruct C as [[L E]|[L E]]; rewrite E; [rewrite Qabs_pos in Ea by lra|rewrite Qabs_neg in Ea by lra]; lra. }
    assert (0 < inject_Z M * Qpower 2 e)%Q as PM by nra.
    clear K. split; [|split; [|split]].
    + split; [split; [intro F; exfalso|intro F; contradiction]|split; [|split; [exact H1|apply Qlt_le_weak, H2]]].
      * destruct C as [[L E]|[L E]]; rewrite E in F; lra.
      * destruct C as [[L E]|[L E]]; rewrite E; set (w := (inject_Z M * Qpower 2 e)%Q) in *; nra.
    + intros z Ez. apply (U 0). change (Qpower 2 0) with 1%Q. rewrite Qmult_1_r. rewrite Ez.
      assert (z <> 0) as Hz by (intros ->; apply NZ, Ez).
      unfold M. rewrite Ez. replace (Qabs (inject_Z z)) with (inject_Z (Z.abs z)) by reflexivity. rewrite Qfloor_Z. rewrite Z.max_r by lia. reflexivity.
    + intros k Hk. assert (Qabs x == Qpower 2 k)%Q as Ea.
      { destruct Hk as [-> | ->]; [|rewrite Qabs_opp]; apply Qabs_pos; apply Qlt_le_weak, pow2_pos. }
      destruct (Z_lt_le_dec k 0) as [Nk|Nk].
      * apply (U k). assert (M = 1) as ->; [|rewrite Ea; change (inject_Z 1) with 1%Q; ring]. unfold M. rewrite Ea.
        assert (Qfloor (Qpower 2 k) < 1); [|lia]. rewrite Zlt_Qlt. eapply Qle_lt_trans; [apply Qfloor_le|].
        apply (Qle_lt_trans _ (Qpower 2 (-1))); [apply pow2_le; lia|reflexivity].
      * apply (U 0). change (Qpower 2 0) with 1%Q. rewrite Qmult_1_r. rewrite Ea. unfold M. rewrite Ea. rewrite pow2_Z by exact Nk.
        rewrite Qfloor_Z. assert (0 < 2 ^ k) by (apply Z.pow_pos_nonneg; lia). rewrite Z.max_r by lia. reflexivity.
    + intro H3. rewrite Av. assert (3 <= Qfloor (Qabs x)) as F3 by (change 3 with (Qfloor 3); apply Qfloor_resp_le, H3).
      assert (M = Qfloor (Qabs x)) as EM by (unfold M; lia). rewrite <- EM.
      assert (e = 0) as ->; [|change (Qpower 2 0) with 1%Q; ring].
      assert (x * x == Qabs x * Qabs x)%Q as Sx by (destruct (Qlt_le_dec x 0); [rewrite Qabs_neg by lra|rewrite Qabs_pos by lra]; ring).
      assert (v * v == inject_Z M * Qpower 2 e * (inject_Z M * Qpower 2 e))%Q as Sv by (destruct C as [[_ E]|[_ E]]; rewrite E; ring).
      rewrite Sv, Sx in H1, H2. pose proof (Qfloor_le (Qabs x)) as G1. pose proof (Qlt_floor (Qabs x)) as G2.
      rewrite <- EM in G1, G2. rewrite inject_Z_plus in G2. change (inject_Z 1) with 1%Q in G2.
      assert (3 <= inject_Z M)%Q as M3 by (change 3%Q with (inject_Z 3); rewrite <- Zle_Qle; lia).
      destruct (Z.lt_trichotomy e 0) as [N|[N|N]]; [exfalso|exact N|exfalso].
      * assert (Qpower 2 e <= 1 # 2)%Q by (change (1 # 2)%Q with (Qpower 2 (-1)); apply pow2_le; lia). set (p := Qpower 2 e) in *. set (mm := inject_Z M) in *.
        assert (mm * p <= mm * (1 # 2))%Q by (apply Qmult_le_l; [exact HM'|assumption]). nra.
      * assert (2 <= Qpower 2 e)%Q by (change 2%Q with (Qpower 2 1) at 1; apply pow2_le; lia). set (p := Qpower 2 e) in *. set (mm := inject_Z M) in *.
        assert (mm * 2 <= mm * p)%Q by (apply Qmult_le_l; [exact HM'|assumption]). nra.
Qed.
(** C79: the rounding does not respect the order of parameters: 2.9 acts as 4, but 3 as 3 *)
Theorem parameter_order_refuted : ~ (forall x y m e m' e', acts_as x m e -> acts_as y m' e' -> (x <= y)%Q -> (two_exp m e <= two_exp m' e')%Q).
Proof.
  intro H. apply (Qlt_not_le 3 4); [reflexivity|]. change 4%Q with (two_exp 2 1). change 3%Q with (two_exp 3 0).
  apply (H (29 # 10) 3%Q); [right|right|vm_compute; discriminate].
  - split; [discriminate|]. split; [reflexivity|]. split; vm_compute; [discriminate|reflexivity].
  - split; [discriminate|]. split; [reflexivity|]. split; vm_compute; [discriminate|reflexivity].
Qed.

(** ** The rules *)
Definition stdp_terms (lr ap am : Q) : rule :=
  [ {| t_sign := NoSign; t_atoms := lit_atoms lr ++ lit_atoms am ++ [AEvent Pre; AVar Y1] |};
    {| t_sign := Plus; t_atoms := lit_atoms lr ++ lit_atoms ap ++ [AEvent Post; AVar X1] |} ].
Definition rstdp_terms (lr ap am tau : Q) : rule :=
  stdp_terms lr ap am ++ [ {| t_sign := Minus; t_atoms := [AEvent (Periodic 0); AVar T] ++ lit_atoms tau |} ].
Definition rstdp_w : rule := [ {| t_sign := NoSign; t_atoms := [AEvent (Periodic 0); AVar T; AVar Y2] |} ].

Lemma lits_app l r : Forall const_atom l -> Forall const_atom r -> Forall const_atom (l ++ r).
Proof. intros. apply Forall_app. split; assumption. Qed.
Lemma lits x y : Forall const_atom (lit_atoms x ++ lit_atoms y).
Proof. apply lits_app; apply lit_const_atoms. Qed.
Lemma term_const_mant s x y r : term_mant {| t_sign := s; t_atoms := lit_atoms x ++ lit_atoms y ++ r |} = sign_value s * (lit_m x * lit_m y * mants r).
Proof.
  unfold term_mant. cbn [t_sign t_atoms]. fold (mants (lit_atoms x ++ lit_atoms y ++ r)). rewrite !mants_app.
  destruct (lit_const_atoms x) as (_ & _ & -> & _), (lit_const_atoms y) as (_ & _ & -> & _). ring.
Qed.
Lemma term_const_exp s x y r : term_exp {| t_sign := s; t_atoms := lit_atoms x ++ lit_atoms y ++ r |} = lit_e x + lit_e y + exps r.
Proof.
  unfold term_exp. cbn [t_sign t_atoms]. fold (exps (lit_atoms x ++ lit_atoms y ++ r)). rewrite !exps_app.
  destruct (lit_const_atoms x) as (_ & _ & _ & ->), (lit_const_atoms y) as (_ & _ & _ & ->). ring.
Qed.
Lemma wf_event_term s x y e v : match e with Periodic k => (k < 10)%nat | _ => True end ->
  wf_term {| t_sign := s; t_atoms := lit_atoms x ++ lit_atoms y ++ [AEvent e; AVar v] |}.
Proof.
  intro He. split; cbn [t_atoms].
  - destruct (lit_const_atoms x) as (_ & H & _). destruct (lit_atoms x); [congruence|discriminate].
  - apply Forall_app. split; [apply const_wf, lit_const_atoms|]. apply Forall_app. split; [apply const_wf, lit_const_atoms|].
    repeat apply Forall_cons; try apply Forall_nil; cbn [wf_atom]; [destruct e; assumption|exact I].
Qed.
Lemma stdp_wf lr ap am : wf_rule (stdp_terms lr ap am).
Proof.
  split; [discriminate|]. split; [|constructor; [discriminate|constructor]].
  constructor; [|constructor; [|constructor]]; apply wf_event_term; exact I.
Qed.
Lemma wf_tau tau : wf_term {| t_sign := Minus; t_atoms := [AEvent (Periodic 0); AVar T] ++ lit_atoms tau |}.
Proof.
  split; [discriminate|]. cbn [t_atoms]. apply Forall_app. split; [|apply const_wf, lit_const_atoms].
  repeat apply Forall_cons; try apply Forall_nil; cbn [wf_atom]; [lia|exact I].
Qed.
Lemma rstdp_wf lr ap am tau : wf_rule (rstdp_terms lr ap am tau).
Proof.
  split; [discriminate|]. split.
  - apply Forall_app. split; [apply stdp_wf|]. constructor; [apply wf_tau|constructor].
  - constructor; [discriminate|constructor; [discriminate|constructor]].
Qed.
Lemma filter_lits x y w : show_atoms (lit_atoms x ++ lit_atoms y ++ w) =
  match w with [] => show_atoms (lit_atoms x) ++ "*"%char :: show_atoms (lit_atoms y)
             | _ => show_atoms (lit_atoms x) ++ "*"%char :: show_atoms (lit_atoms y) ++ "*"%char :: show_atoms w end.
Proof.
  destruct (lit_const_atoms x) as (_ & Hx & _), (lit_const_atoms y) as (_ & Hy & _).
  rewrite show_atoms_app; [|exact Hx|destruct (lit_atoms y); [congruence|discriminate]].
  destruct w; [now rewrite app_nil_r|]. rewrite show_atoms_app; [reflexivity|exact Hy|discriminate].
Qed.
Lemma stdp_writes lr ap am : writes (stdp_dw lr ap am) (stdp_terms lr ap am).
Proof.
  unfold writes, stdp_dw, show_rule, stdp_terms. rewrite list_ascii_of_string_of_list_ascii. fold nospace.
  cbn [map List.concat show_term t_sign t_atoms show_sign]. unfold show_term. cbn [t_sign t_atoms]. rewrite !filter_lits, !filter_app, !lit_text.
  cbn [list_ascii_of_string filter]. unfold nospace. cbn [Ascii.eqb Bool.eqb negb app show_atoms show_atom show_event show_var show_sign list_ascii_of_string].
  repeat (rewrite <- app_assoc; cbn [app]). reflexivity.
Qed.
Lemma rstdp_writes lr ap am tau : writes (rstdp_dt lr ap am tau) (rstdp_terms lr ap am tau).
Proof.
  unfold writes, rstdp_dt, show_rule, rstdp_terms, stdp_terms. rewrite list_ascii_of_string_of_list_ascii. fold nospace.
  cbn [map List.concat app]. unfold show_term. cbn [t_sign t_atoms].
  change (AEvent (Periodic 0) :: AVar T :: lit_atoms tau) with ([AEvent (Periodic 0); AVar T] ++ lit_atoms tau).
  rewrite (show_atoms_app _ (lit_atoms tau)); [|discriminate|apply lit_const_atoms].
  rewrite !filter_lits, !filter_app, !lit_text.
  cbn [list_ascii_of_string filter]. unfold nospace. cbn [Ascii.eqb Bool.eqb negb app show_atoms show_atom show_event show_var show_sign list_ascii_of_string nth].
  repeat (rewrite <- app_assoc; cbn [app]). rewrite app_nil_r. reflexivity.
Qed.
(** ** Their size *)
Definition moderate (x : Q) : Prop := (Qabs x < inject_Z (2 ^ 27))%Q.
Lemma lit_m_bound x : moderate x -> Z.abs (lit_m x) < 2 ^ 27.
Proof.
  unfold moderate. intro H. unfold lit_m. destruct (Qeq_bool x 0); [reflexivity|]. unfold qsign, mantissa. rewrite Z.abs_mul.
  assert (Qfloor (Qabs x) < 2 ^ 27) as F.
  { rewrite Zlt_Qlt. eapply Qle_lt_trans; [apply Qfloor_le|exact H]. }
  assert (Z.abs (Z.sgn (Qnum x)) <= 1) by (destruct (Qnum x); cbn; lia). change (2 ^ 27) with 134217728 in *. nia.
Qed.
Lemma mul_bound a b : Z.abs a < 2 ^ 27 -> Z.abs b < 2 ^ 27 -> Z.abs (a * b) < 2 ^ 54.
Proof. intros Ha Hb. rewrite Z.abs_mul. change (2 ^ 54) with (2 ^ 27 * 2 ^ 27). change (2 ^ 27) with 134217728 in *. nia. Qed.
Lemma stdp_small lr ap am : moderate lr -> moderate ap -> moderate am -> small (stdp_terms lr ap am).
Proof.
  intros H1 H2 H3 t [<-|[<-|[]]]; rewrite term_const_mant; cbn [sign_value mants fold_right atom_scale fst];
    rewrite ?Z.mul_1_l, ?Z.mul_1_r; apply mul_bound; now apply lit_m_bound.
Qed.
Lemma rstdp_small lr ap am tau : moderate lr -> moderate ap -> moderate am -> moderate tau -> small (rstdp_terms lr ap am tau).
Proof.
  intros H1 H2 H3 H4 t Ht. apply in_app_iff in Ht. destruct Ht as [Ht|[<-|[]]]; [now apply (stdp_small lr ap am)|].
  unfold term_mant. cbn [t_sign t_atoms app fold_right atom_scale fst sign_value]. fold (mants (lit_atoms tau)).
  destruct (lit_const_atoms tau) as (_ & _ & -> & _). pose proof (lit_m_bound tau H4). change (2 ^ 27) with 134217728 in *. change (2 ^ 54) with 18014398509481984. lia.
Qed.
(** ** Their value *)
Lemma event_term_value rho s x y e v : 
  (term_value rho {| t_sign := s; t_atoms := lit_atoms x ++ lit_atoms y ++ [AEvent e; AVar v] |} ==
   signed s (two_exp (lit_m x) (lit_e x) * two_exp (lit_m y) (lit_e y) * occurs rho e * at_event rho e v))%Q.
Proof.
  unfold term_value. cbn [t_sign t_atoms].
  assert (dependency (lit_atoms x ++ lit_atoms y ++ [AEvent e; AVar v]) = Some e) as ->.
  { rewrite app_assoc, const_dependency by apply lits. reflexivity. }
  unfold signed. apply Qmult_comp; [reflexivity|]. rewrite !map_app, !qprod_app, !const_value by apply lit_const_atoms.
  destruct (lit_const_atoms x) as (_ & _ & -> & ->), (lit_const_atoms y) as (_ & _ & -> & ->).
  cbn [map atom_value qprod fold_right]. ring.
Qed.
Lemma tau_value rho tau :
  (term_value rho {| t_sign := Minus; t_atoms := [AEvent (Periodic 0); AVar T] ++ lit_atoms tau |} ==
   - (occurs rho (Periodic 0) * at_event rho (Periodic 0) T * two_exp (lit_m tau) (lit_e tau)))%Q.
Proof.
  unfold term_value. cbn [t_sign t_atoms app dependency]. unfold signed. cbn [map atom_value qprod fold_right sign_value].
  fold (qprod (map (atom_value rho (Periodic 0)) (lit_atoms tau))). rewrite const_value by apply lit_const_atoms.
  destruct (lit_const_atoms tau) as (_ & _ & -> & ->). change (inject_Z (-1)) with (-1)%Q. ring.
Qed.
(** what the rule of STDPLoihi is meant to be: at a pre-synaptic spike the weight changes by A_minus times the post-synaptic trace,
    at a post-synaptic spike by A_plus times the pre-synaptic trace *)
Definition stdp_value (rho : env) (lr a_plus a_minus : Q) : Q :=
  (lr * a_minus * occurs rho Pre * at_event rho Pre Y1 + lr * a_plus * occurs rho Post * at_event rho Post X1)%Q.
Lemma stdp_rule_value rho lr ap am : (rule_value rho (stdp_terms lr ap am) ==
  stdp_value rho (two_exp (lit_m lr) (lit_e lr)) (two_exp (lit_m ap) (lit_e ap)) (two_exp (lit_m am) (lit_e am)))%Q.
Proof.
  unfold rule_value, stdp_terms. cbn [map qsum fold_right]. rewrite !event_term_value. unfold signed, stdp_value. cbn [sign_value].
  change (inject_Z 1) with 1%Q. ring.
Qed.
Lemma rstdp_rule_value rho lr ap am tau : (rule_value rho (rstdp_terms lr ap am tau) ==
  stdp_value rho (two_exp (lit_m lr) (lit_e lr)) (two_exp (lit_m ap) (lit_e ap)) (two_exp (lit_m am) (lit_e am))
  - two_exp (lit_m tau) (lit_e tau) * occurs rho (Periodic 0) * at_event rho (Periodic 0) T)%Q.
Proof.
  unfold rstdp_terms. unfold rule_value. rewrite map_app. 
  assert (forall a b, qsum (a ++ b) == qsum a + qsum b)%Q as QA.
  { intros a b. induction a as [|q a IH]; [change (qsum b == 0 + qsum b)%Q; ring|]. cbn [app qsum fold_right]. fold (qsum (a ++ b)) (qsum a). rewrite IH. ring. }
  rewrite QA. fold (rule_value rho (stdp_terms lr ap am)). rewrite stdp_rule_value. cbn [map qsum fold_right]. rewrite tau_value. ring.
Qed.
(** ** Theorems *)
Ltac acts H := let H1 := fresh in let H2 := fresh in
  match type of H with acts_as ?x _ _ => destruct (acts_unique _ _ _ _ _ H (lit_acts x)) as [H1 H2]; subst; clear H end.
(** C79: STDPLoihi(learning_rate, A_plus, A_minus), when it is accepted, has exactly the STDP rule with the rounded parameters *)
Theorem stdp_is_stdp : forall lr ap am ml el mp ep ma ea,
  moderate lr -> moderate ap -> moderate am -> acts_as lr ml el -> acts_as ap mp ep -> acts_as am ma ea ->
  forall ps k, compile (stdp_dw lr ap am) = Some (ps, k) -> k = None /\
  forall rho, binary rho -> (series_value rho ps == stdp_value rho (two_exp ml el) (two_exp mp ep) (two_exp ma ea))%Q.
Proof.
  intros lr ap am ml el mp ep ma ea M1 M2 M3 A1 A2 A3 ps k E. acts A1. acts A2. acts A3.
  pose proof (stdp_wf lr ap am) as Hw. pose proof (stdp_small lr ap am M1 M2 M3) as Hs. pose proof (stdp_writes lr ap am) as Hwr. split.
  - apply (rule_decimation _ _ Hw Hs Hwr ps k E). intros t [<-|[<-|[]]]; cbn [t_atoms]; rewrite app_assoc, const_periods by apply lits; reflexivity.
  - intros rho Hb. rewrite (proj2 (rule_means_what_it_says_partial _ _ Hw Hs Hwr ps k E) rho Hb). apply stdp_rule_value.
Qed.
(** C79: it is accepted exactly if both scaling constants fit the hardware *)
Theorem stdp_accepted_iff : forall lr ap am ml el mp ep ma ea,
  moderate lr -> moderate ap -> moderate am -> acts_as lr ml el -> acts_as ap mp ep -> acts_as am ma ea ->
  ((exists ps k, compile (stdp_dw lr ap am) = Some (ps, k)) <-> representable (ml * ma) (el + ea) /\ representable (ml * mp) (el + ep)).
Proof.
  intros lr ap am ml el mp ep ma ea M1 M2 M3 A1 A2 A3. acts A1. acts A2. acts A3.
  pose proof (stdp_wf lr ap am) as Hw. pose proof (stdp_small lr ap am M1 M2 M3) as Hs. pose proof (stdp_writes lr ap am) as Hwr.
  rewrite (rule_accepted_iff _ _ Hw Hs Hwr). unfold acceptable.
  assert (P : forall t, In t (stdp_terms lr ap am) -> periods (t_atoms t) = []).
  { intros t [<-|[<-|[]]]; cbn [t_atoms]; rewrite app_assoc, const_periods by apply lits; reflexivity. }
  split.
  - intros [H _]. split.
    + destruct (H _ (or_introl eq_refl)) as [R _]. rewrite term_const_mant, term_const_exp in R.
      cbn [sign_value mants exps fold_right atom_scale fst snd] in R. rewrite ?Z.mul_1_l, ?Z.mul_1_r, ?Z.add_0_r in R. exact R.
    + destruct (H _ (or_intror (or_introl eq_refl))) as [R _]. rewrite term_const_mant, term_const_exp in R.
      cbn [sign_value mants exps fold_right atom_scale fst snd] in R. rewrite ?Z.mul_1_l, ?Z.mul_1_r, ?Z.add_0_r in R. exact R.
  - intros [R1 R2]. split; [|intros t t' k k' Ht Ht' Hk; rewrite (P t Ht) in Hk; destruct Hk].
    intros t Ht. split; [|pose proof (P t Ht) as Pt].
    + destruct Ht as [<-|[<-|[]]]; rewrite term_const_mant, term_const_exp;
        cbn [sign_value mants exps fold_right atom_scale fst snd]; rewrite ?Z.mul_1_l, ?Z.mul_1_r, ?Z.add_0_r; assumption.
    + destruct Ht as [<-|[<-|[]]]; cbn [t_atoms]; [exists Pre|exists Post]; (split; [rewrite app_assoc, const_dependency by apply lits; reflexivity|left; exact Pt]).
Qed.
(** C79: so small parameters are not rounded to zero but refused, when learning_rate * A falls below 2^-7 *)
Lemma small_acts x m e : acts_as x m e -> (0 < Qabs x)%Q -> (Qabs x <= 1)%Q -> Z.abs m = 1 /\ e <= 0.
Proof.
  intros [(H & _)|(NZ & Hm & H)] P L; [rewrite H in P; discriminate P|]. cbv zeta in H. destruct H as [H1 H2].
  assert (x * x == Qabs x * Qabs x)%Q as Sx by (destruct (Qlt_le_dec x 0); [rewrite Qabs_neg by lra|rewrite Qabs_pos by lra]; ring).
  assert (Z.abs m = 1) as Am.
  { rewrite Hm, Z.abs_mul. assert (Z.abs (Z.sgn (Qnum x)) = 1) as ->.
    { destruct x as [n d]. cbn [Qnum]. destruct n; [|reflexivity..]. exfalso. apply NZ. reflexivity. }
    assert (Qfloor (Qabs x) <= 1) by (rewrite Zle_Qle; eapply Qle_trans; [apply Qfloor_le|exact L]). rewrite Z.max_l by lia. reflexivity. }
  split; [exact Am|]. destruct (Z_lt_le_dec 0 e) as [C|C]; [exfalso|exact C].
  assert (2 <= Qpower 2 e)%Q as P2 by (change 2%Q with (Qpower 2 1) at 1; apply pow2_le; lia).
  assert (inject_Z m * inject_Z m == 1)%Q as M1.
  { rewrite <- inject_Z_mult. replace (m * m) with (Z.abs m * Z.abs m) by lia. rewrite Am. reflexivity. }
  set (p := Qpower 2 e) in *. setoid_replace (inject_Z m * p * (inject_Z m * p))%Q with (inject_Z m * inject_Z m * (p * p))%Q in H1 by ring.
  rewrite M1 in H1. rewrite Sx in H1. nra.
Qed.
Lemma representable_one m e : Z.abs m = 1 -> e <= 0 -> (representable m e <-> -7 <= e).
Proof.
  intros Hm He. split.
  - intros (k & m' & Hk & E & B & X & [->|F]); [lia|]. assert (0 < 2 ^ k) by (apply Z.pow_pos_nonneg; lia). nia.
  - intro H. exists 0, m. rewrite Z.pow_0_r. lia.
Qed.
Lemma two_exp_small m e : Z.abs m = 1 -> ((1 # 128 <= Qabs (two_exp m e))%Q <-> -7 <= e).
Proof.
  intro Hm. unfold two_exp. rewrite Qabs_Qmult. rewrite (Qabs_pos (Qpower 2 e)) by apply Qlt_le_weak, pow2_pos.
  replace (Qabs (inject_Z m)) with (inject_Z (Z.abs m)) by reflexivity. rewrite Hm, Qmult_1_l. change (1 # 128)%Q with (Qpower 2 (-7)). split.
  - intro H. destruct (Z_lt_le_dec e (-7)) as [C|C]; [exfalso|exact C]. apply (Qle_not_lt _ _ H). apply (Qle_lt_trans _ (Qpower 2 (-8))); [apply pow2_le; lia|reflexivity].
  - apply pow2_le.
Qed.
Theorem stdp_small_parameters : forall lr ap am ml el mp ep ma ea,
  acts_as lr ml el -> acts_as ap mp ep -> acts_as am ma ea ->
  (0 < Qabs lr)%Q -> (Qabs lr <= 1)%Q -> (0 < Qabs ap)%Q -> (Qabs ap <= 1)%Q -> (0 < Qabs am)%Q -> (Qabs am <= 1)%Q ->
  ((exists ps k, compile (stdp_dw lr ap am) = Some (ps, k)) <->
   (1 # 128 <= Qabs (two_exp ml el * two_exp ma ea) /\ 1 # 128 <= Qabs (two_exp ml el * two_exp mp ep))%Q).
Proof.
  intros lr ap am ml el mp ep ma ea A1 A2 A3 P1 L1 P2 L2 P3 L3.
  assert (forall x, (Qabs x <= 1)%Q -> moderate x) as Mo by (intros x H; unfold moderate; eapply Qle_lt_trans; [exact H|reflexivity]).
  rewrite (stdp_accepted_iff lr ap am ml el mp ep ma ea) by auto.
  destruct (small_acts _ _ _ A1 P1 L1) as [B1 C1], (small_acts _ _ _ A2 P2 L2) as [B2 C2], (small_acts _ _ _ A3 P3 L3) as [B3 C3].
  assert (forall m e m' e', two_exp m e * two_exp m' e' == two_exp (m * m') (e + e'))%Q as T.
  { intros. unfold two_exp. rewrite inject_Z_mult, pow2_add. ring. }
  rewrite !T. assert (forall m m', Z.abs m = 1 -> Z.abs m' = 1 -> Z.abs (m * m') = 1) as Am by (intros; rewrite Z.abs_mul; lia).
  rewrite !representable_one by (auto; lia). rewrite !two_exp_small by auto. reflexivity.
Qed.

Definition silence : args := {| a_x0 := 0; a_y0 := 0; a_u := 0; a_syn := fun _ => 0; a_trace := fun _ _ => 0 |}.
Lemma stdp_products lr ap am ps k : moderate lr -> moderate ap -> moderate am ->
  compile (stdp_dw lr ap am) = Some (ps, k) -> to_products ps <> None.
Proof.
  intros M1 M2 M3 E.
  assert (Ha : args_ok silence) by (intros []; vm_compute; split; intro; discriminate).
  destruct (rule_text_applied_partial _ _ (stdp_wf lr ap am) (stdp_small lr ap am M1 M2 M3) (stdp_writes lr ap am) ps k E silence Ha) as (qs & -> & _);
    [|discriminate].
  intros t0 Ht. assert (Z0 : (term_value (args_env silence) t0 == 0)%Q).
  { destruct Ht as [<-|[<-|[]]]; rewrite event_term_value; unfold signed, args_env; cbn [occurs at_event silence a_x0 a_y0 a_u a_syn a_trace]; change (inject_Z 0) with 0%Q; ring. }
  rewrite Z0. assert (Q0 : (Qabs 0 < 256)%Q) by reflexivity.
  destruct Ht as [<-|[<-|[]]]; cbn [t_atoms]; (split; [rewrite app_assoc, const_term_bits by apply lits; vm_compute; discriminate|]);
    (split; [rewrite app_assoc; apply Forall_app; split; [apply const_whole, lits|repeat constructor]|]); (split; [|exact Q0]);
    rewrite app_assoc; (apply Forall_app; split; [apply const_fits, lits|]); constructor; try exact I; constructor; try constructor; vm_compute; reflexivity.
Qed.
(** C79: in a fixed-point learning connection STDPLoihi changes the weight by the STDP rule with the rounded parameters, if the
    traces have their seven bits and the weight cannot leave the range of the accumulator *)
Theorem stdp_learned_partial : forall lr ap am ml el mp ep ma ea,
  moderate lr -> moderate ap -> moderate am -> acts_as lr ml el -> acts_as ap mp ep -> acts_as am ma ea ->
  forall ps k, compile (stdp_dw lr ap am) = Some (ps, k) ->
  forall c t i st post pre, cfg_rule c SWeights = to_products ps -> (0 <= r_syn i)%Q ->
  let rho := epoch_env c t i st post pre in
  let l := two_exp ml el in let p := two_exp mp ep in let a := two_exp ma ea in
  let w := inject_Z (syn_val st SWeights post pre) in
  (Qabs (at_event rho Pre Y1) <= 127)%Q -> (Qabs (at_event rho Post X1) <= 127)%Q ->
  (Qabs w + 127 * (Qabs (l * a) + Qabs (l * p)) < 256)%Q ->
  syn_val (learn_phase c t i st) SWeights post pre =
  saturated (cfg_sign c) SWeights (rounded (r_syn i) (w + stdp_value rho l p a)).
Proof.
  intros lr ap am ml el mp ep ma ea M1 M2 M3 A1 A2 A3 ps k E c t i st post pre Hc Hr rho l p a w T1 T2 Hf.
  pose proof (stdp_products lr ap am ps k M1 M2 M3 E) as Hn.
  destruct (stdp_is_stdp lr ap am ml el mp ep ma ea M1 M2 M3 A1 A2 A3 ps k E) as [Hk _]. acts A1. acts A2. acts A3.
  pose proof (stdp_wf lr ap am) as Hw. pose proof (stdp_small lr ap am M1 M2 M3) as Hs. pose proof (stdp_writes lr ap am) as Hwr.
  assert (OB : forall e, (0 <= occurs rho e <= 1)%Q).
  { intro e. unfold rho, epoch_env. cbn [occurs]. destruct e; [destruct (0 <? _)..|destruct (_ =? 0)]; split; vm_compute; discriminate. }
  assert (B : forall u e v, (Qabs (at_event rho e v) <= 127)%Q -> (Qabs (u * occurs rho e * at_event rho e v) <= 127 * Qabs u)%Q).
  { intros u e v Hv. rewrite !Qabs_Qmult. destruct (OB e) as [O1 O2]. rewrite (Qabs_pos (occurs rho e)) by exact O1.
    pose proof (Qabs_nonneg u). pose proof (Qabs_nonneg (at_event rho e v)). set (x := Qabs u) in *. set (o := occurs rho e) in *. set (y := Qabs (at_event rho e v)) in *.
    assert (o * y <= 127)%Q by nra. setoid_replace (x * o * y)%Q with (x * (o * y))%Q by ring. rewrite (Qmult_comm 127).
    rewrite !(Qmult_comm x). apply Qmult_le_compat_r; assumption. }
  pose proof (B (l * a)%Q Pre Y1 T1) as B1. pose proof (B (l * p)%Q Post X1 T2) as B2.
  pose proof (Qabs_nonneg w) as Nw. pose proof (Qabs_nonneg (l * a)) as Na. pose proof (Qabs_nonneg (l * p)) as Np.
  assert (V1 : (term_value rho {| t_sign := NoSign; t_atoms := lit_atoms lr ++ lit_atoms am ++ [AEvent Pre; AVar Y1] |} == l * a * occurs rho Pre * at_event rho Pre Y1)%Q).
  { rewrite event_term_value. unfold signed. cbn [sign_value]. change (inject_Z 1) with 1%Q. unfold l, a. ring. }
  assert (V2 : (term_value rho {| t_sign := Plus; t_atoms := lit_atoms lr ++ lit_atoms ap ++ [AEvent Post; AVar X1] |} == l * p * occurs rho Post * at_event rho Post X1)%Q).
  { rewrite event_term_value. unfold signed. cbn [sign_value]. change (inject_Z 1) with 1%Q. unfold l, p. ring. }
  rewrite (rule_text_learned_partial _ _ Hw Hs Hwr ps None E c t i st SWeights post pre (or_introl eq_refl) Hc Hn Hr).
  - f_equal. apply rounded_compat. fold rho w. rewrite stdp_rule_value. reflexivity.
  - fold rho. assert (G : forall e v x y, var_bits v = 7 -> (Qabs (at_event rho e v) <= 127)%Q ->
      let at_ := lit_atoms x ++ lit_atoms y ++ [AEvent e; AVar v] in
      term_bits at_ <= 11 /\ Forall whole_atom at_ /\ Forall (fits rho e) at_).
    { intros e v x y Hv Ht. cbv zeta. split; [|split].
      - rewrite app_assoc, const_term_bits by apply lits. cbn [term_bits bits fold_right atom_bits]. rewrite Hv. lia.
      - rewrite app_assoc. apply Forall_app. split; [apply const_whole, lits|]. repeat constructor.
      - rewrite app_assoc. apply Forall_app. split; [apply const_fits, lits|]. constructor; [exact I|]. constructor; [|constructor].
        cbn [fits]. rewrite Hv. eapply Qle_lt_trans; [exact Ht|reflexivity]. }
    assert (TE : forall s e v x y, term_event {| t_sign := s; t_atoms := lit_atoms x ++ lit_atoms y ++ [AEvent e; AVar v] |} = e).
    { intros. unfold term_event. cbn [t_atoms]. rewrite app_assoc, const_dependency by apply lits. reflexivity. }
    intros t0 [<-|[<-|[]]]; rewrite TE; cbn [t_atoms].
    + destruct (G Pre Y1 lr am eq_refl T1) as (G1 & G2 & G3). split; [exact G1|]. split; [exact G2|]. split; [exact G3|]. rewrite V1. lra.
    + destruct (G Post X1 lr ap eq_refl T2) as (G1 & G2 & G3). split; [exact G1|]. split; [exact G2|]. split; [exact G3|]. rewrite V2. lra.
  - fold rho w. intro n. destruct n as [|[|n]].
    + unfold rule_value. cbn [firstn map qsum fold_right]. rewrite Qplus_0_r. fold w. lra.
    + unfold rule_value, stdp_terms. cbn [firstn map qsum fold_right]. rewrite V1, Qplus_0_r. fold w.
      eapply Qle_lt_trans; [apply Qabs_triangle|]. lra.
    + rewrite firstn_all2 by (cbn; lia). rewrite stdp_rule_value. unfold stdp_value. fold l p a w.
      eapply Qle_lt_trans; [apply Qabs_triangle|]. eapply Qle_lt_trans; [apply Qplus_le_compat; [apply Qle_refl|apply Qabs_triangle]|]. lra.
Qed.

(** C79: RewardModulatedSTDP keeps the same rule in the eligibility trace t, which loses the fraction eligibility_trace_decay_tau
    in every epoch, and moves the weight by t times the third factor y2 *)
Theorem rstdp_is_rstdp : forall lr ap am tau ml el mp ep ma ea mt et,
  moderate lr -> moderate ap -> moderate am -> moderate tau ->
  acts_as lr ml el -> acts_as ap mp ep -> acts_as am ma ea -> acts_as tau mt et ->
  (forall ps k, compile (rstdp_dt lr ap am tau) = Some (ps, k) -> k = Some 0 /\
   forall rho, binary rho -> (series_value rho ps == stdp_value rho (two_exp ml el) (two_exp mp ep) (two_exp ma ea)
                                                    - two_exp mt et * occurs rho (Periodic 0) * at_event rho (Periodic 0) T)%Q) /\
  (exists ps, compile rstdp_dw = Some (ps, Some 0) /\
   forall rho, binary rho -> (series_value rho ps == occurs rho (Periodic 0) * at_event rho (Periodic 0) T * at_event rho (Periodic 0) Y2)%Q).
Proof.
  intros lr ap am tau ml el mp ep ma ea mt et M1 M2 M3 M4 A1 A2 A3 A4. acts A1. acts A2. acts A3. acts A4. split.
  - intros ps k E. pose proof (rstdp_wf lr ap am tau) as Hw. pose proof (rstdp_small lr ap am tau M1 M2 M3 M4) as Hs. pose proof (rstdp_writes lr ap am tau) as Hwr. split.
    + apply (proj1 (rule_decimation _ _ Hw Hs Hwr ps k E) 0%nat). eexists. split; [right; right; left; reflexivity|]. left. reflexivity.
    + intros rho Hb. rewrite (proj2 (rule_means_what_it_says_partial _ _ Hw Hs Hwr ps k E) rho Hb). apply rstdp_rule_value.
  - assert (wf_rule rstdp_w) as Hw.
    { split; [discriminate|]. split; [|constructor]. constructor; [|constructor]. split; [discriminate|]. cbn [t_atoms].
      repeat apply Forall_cons; try apply Forall_nil; cbn [wf_atom]; [lia|exact I|exact I]. }
    assert (small rstdp_w) as Hs by (intros t [<-|[]]; vm_compute; reflexivity).
    assert (writes rstdp_dw rstdp_w) as Hwr by reflexivity.
    eexists. split; [vm_compute; reflexivity|]. intros rho Hb. unfold series_value. cbn [map qsum fold_right].
    unfold compiled_value, product_event, qprod. cbn [rp_dep rp_mant rp_exp rp_factors rp_decimate map fold_right].
    cbn. ring.
Qed.
(** C79: the documentation calls it a time constant, but a larger eligibility_trace_decay_tau makes the trace decay faster; from 2
    on the trace does not decay at all but flips its sign *)
Definition quiet_env (tag : Q) : env :=
  {| occurs := fun e => match e with Periodic _ => 1%Q | _ => 0%Q end; at_event := fun _ v => match v with T => tag | _ => 0%Q end |}.
Theorem eligibility_tau_refuted : exists ps k, compile (rstdp_dt (1 # 2) 1 (-1) 4) = Some (ps, k) /\
  forall tag, (tag + series_value (quiet_env tag) ps == - (3) * tag)%Q.
Proof.
  eexists. eexists. split; [vm_compute; reflexivity|]. intro tag. unfold series_value, compiled_value, qsum, qprod, product_event.
  cbn. ring.
Qed.

(** ** An instance: learning rate 0.1 (acts as 1/8), A_plus 2, A_minus -1.3 (acts as -1); both neurons have spiked, x1 = 25, y1 = 43,
    and the weight goes from 61 to 61 - 43/8 + 25/4 = 61.875 *)
Definition demo_acts : acts_as (1 # 10) 1 (-3) /\ acts_as 2 2 0 /\ acts_as (-13 # 10) (-1) 0.
Proof.
  split; [|split]; right; (split; [discriminate|]); (split; [reflexivity|]); split; vm_compute; (discriminate || reflexivity).
Qed.
Example stdp_instance : exists ps, compile (stdp_dw (1 # 10) 2 (-13 # 10)) = Some (ps, None) /\
  let c := stdp_cfg ps in let rho := epoch_env c 16 (quiet (1 # 2)) stdp_state 0 0 in
  cfg_rule c SWeights = to_products ps /\ moderate (1 # 10) /\ moderate 2 /\ moderate (-13 # 10) /\
  (Qabs (at_event rho Pre Y1) <= 127)%Q /\ (Qabs (at_event rho Post X1) <= 127)%Q /\
  (Qabs 61 + 127 * (Qabs (two_exp 1 (-3) * two_exp (-1) 0) + Qabs (two_exp 1 (-3) * two_exp 2 0)) < 256)%Q /\
  (stdp_value rho (two_exp 1 (-3)) (two_exp 2 0) (two_exp (-1) 0) == 7 # 8)%Q /\
  syn_val (learn_phase c 16 (quiet (1 # 2)) stdp_state) SWeights 0 0 = 62 /\
  syn_val (learn_phase c 16 (quiet (7 # 8)) stdp_state) SWeights 0 0 = 61.
Proof.
  eexists. split; [vm_compute; reflexivity|]. cbv zeta.
  split; [reflexivity|]. split; [reflexivity|]. split; [reflexivity|]. split; [reflexivity|]. split; [vm_compute; discriminate|]. split; [vm_compute; discriminate|].
  split; [vm_compute; reflexivity|]. split; [vm_compute; reflexivity|]. split; vm_compute; reflexivity.
Qed.
(** a learning rate of 0.01 with A_plus 0.5 is refused *)
Example stdp_refused : compile (stdp_dw (1 # 100) (1 # 2) (- 1)) = None /\ compile (stdp_dw (1 # 100) 1 (- 1)) <> None.
Proof. split; [vm_compute; reflexivity|vm_compute; discriminate]. Qed.
