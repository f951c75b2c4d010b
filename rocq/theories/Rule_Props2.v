(** More about learning-rule strings: the grammar is a part of ordinary arithmetic, what outside of it goes
    wrong, the decimation exponent and the active traces of a LearningRule, and witnesses. *)
From Coq Require Import ZArith QArith Qpower List Bool Ascii String Lia.
From Verif Require Import Learning_Model Rule_Model Rule_Spec Rule_Proofs Rule_Props.
Import ListNotations.
Open Scope Z_scope.

(** ** The documented grammar is ordinary arithmetic *)
Definition eb (b : base) : expr := match b with BVar v => EVar v | BPre => EEvent Pre | BPost => EEvent Post end.
Definition es (s : sign) (x : expr) : expr := match s with NoSign => x | Plus => EPos x | Minus => ENeg x end.
Definition e2 (s : sign) (x y : expr) : expr := match s with Minus => ESub x y | _ => EAdd x y end.
Definition ei (i : inside) : expr :=
  match i with
  | InVar s v => es s (EVar v) | InLit s l => es s (ELit l)
  | VarLit s b s' l => e2 s' (es s (eb b)) (ELit l)
  | LitVar s l s' b => e2 s' (es s (ELit l)) (eb b)
  end.
Definition ea (a : atom) : expr :=
  match a with
  | AEvent e => EEvent e | AVar v => EVar v | ALit l => ELit l | ABracket i => EBracket (ei i) | ASgn i => ESgn (ei i)
  end.
Definition eprod (l : list atom) : expr :=
  match l with [] => ELit (Plain ["1"%char]) | a :: r => fold_left (fun x b => EMul x (ea b)) r (ea a) end.
Definition erule (r : rule) : expr :=
  match r with
  | [] => ELit (Plain ["1"%char])
  | t :: ts => fold_left (fun x u => e2 (t_sign u) x (eprod (t_atoms u))) ts (es (t_sign t) (eprod (t_atoms t)))
  end.
Lemma prec_ea a : (2 <= prec (ea a))%nat.
Proof. destruct a; cbn; lia. Qed.
Lemma wb_es s x : well_bracketed x -> (1 <= prec x)%nat -> well_bracketed (es s x).
Proof. destruct s; cbn; auto. Qed.
Lemma wb_e2 s x y : well_bracketed x -> well_bracketed y -> (1 <= prec y)%nat -> well_bracketed (e2 s x y).
Proof. destruct s; cbn; auto. Qed.
Lemma wb_eb b : well_bracketed (eb b) /\ (1 <= prec (eb b))%nat.
Proof. destruct b; cbn; auto. Qed.
Lemma wb_ei i : inside_lit_ok i -> well_bracketed (ei i).
Proof.
  destruct i; cbn [inside_lit_ok ei]; intros H; try (apply wb_es; cbn; auto; fail).
  - apply wb_e2; [apply wb_es; apply wb_eb|exact (proj1 H)|cbn; auto].
  - apply wb_e2; [apply wb_es; [exact (proj1 H)|cbn; auto]|apply wb_eb|apply wb_eb].
Qed.
Lemma wb_ea a : wf_atom a -> well_bracketed (ea a).
Proof.
  destruct a; cbn [wf_atom ea well_bracketed]; intros H; auto; apply wb_ei; [now apply wf_bracket_ok|now apply wf_sgn_ok].
Qed.
Lemma wb_eprod l : l <> [] -> Forall wf_atom l -> well_bracketed (eprod l) /\ (1 <= prec (eprod l))%nat.
Proof.
  destruct l as [|a r]; [congruence|]. intros _ H. inversion H as [|? ? Ha Hr]; subst. cbn [eprod].
  assert (G : well_bracketed (ea a) /\ (1 <= prec (ea a))%nat) by (split; [now apply wb_ea|pose proof (prec_ea a); lia]).
  clear Ha H. revert G. generalize (ea a). induction Hr as [|b r Hb Hr IH]; intros x [G1 G2]; [now split|].
  cbn [fold_left]. apply IH. cbn [well_bracketed prec]. pose proof (prec_ea b). split; [|lia].
  repeat split; auto. now apply wb_ea.
Qed.
Lemma show_es s x : show_expr (es s x) = show_sign s ++ show_expr x.
Proof. destruct s; reflexivity. Qed.
Lemma show_e2 s x y : s <> NoSign -> show_expr (e2 s x y) = show_expr x ++ show_sign s ++ show_expr y.
Proof. destruct s; [congruence|reflexivity|reflexivity]. Qed.
Lemma show_eb b : show_expr (eb b) = show_base b.
Proof. destruct b; reflexivity. Qed.
Lemma show_ei i : inside_lit_ok i -> show_expr (ei i) = show_inside i.
Proof.
  destruct i; cbn [inside_lit_ok ei show_inside]; intros H; rewrite ?show_e2, ?show_es, ?show_eb by tauto; try reflexivity.
  - now rewrite <- app_assoc.
  - now rewrite <- app_assoc.
Qed.
Lemma show_ea a : wf_atom a -> show_expr (ea a) = show_atom a.
Proof.
  destruct a; cbn [wf_atom ea show_expr show_atom]; intros H; auto; rewrite show_ei; auto; [now apply wf_bracket_ok|now apply wf_sgn_ok].
Qed.
Lemma show_eprod l : l <> [] -> Forall wf_atom l -> show_expr (eprod l) = show_atoms l.
Proof.
  destruct l as [|a r]; [congruence|]. intros _ H. inversion H as [|? ? Ha Hr]; subst. cbn [eprod].
  assert (G : show_expr (ea a) = show_atom a) by now apply show_ea.
  assert (S : forall l x, Forall wf_atom l -> show_expr (fold_left (fun x b => EMul x (ea b)) l x)
                = show_expr x ++ match l with [] => [] | _ => "*"%char :: show_atoms l end).
  { clear. induction l as [|b l IH]; intros x Hl; [now rewrite app_nil_r|]. inversion Hl; subst. cbn [fold_left].
    rewrite IH by assumption. cbn [show_expr]. rewrite show_ea by assumption. rewrite <- app_assoc. f_equal. cbn [List.app]. f_equal.
    destruct l; [cbn; now rewrite app_nil_r|reflexivity]. }
  rewrite S, G by assumption. destruct r; [cbn; now rewrite app_nil_r|reflexivity].
Qed.
Definition flat (occ : event -> Q) (val : var -> Q) : env := {| occurs := occ; at_event := fun _ => val |}.
Section Embed.
  Context (occ : event -> Q) (val : var -> Q).
  Notation ev := (expr_value occ val).
  Lemma val_es s x : (ev (es s x) == signed s (ev x))%Q.
  Proof. unfold signed. destruct s; cbn [es expr_value sign_value]; ring. Qed.
  Lemma val_e2 s x y : (ev (e2 s x y) == ev x + signed s (ev y))%Q.
  Proof. unfold signed. destruct s; cbn [e2 expr_value sign_value]; ring. Qed.
  Lemma val_eb e b : ev (eb b) = base_value (flat occ val) e b.
  Proof. destruct b; reflexivity. Qed.
  Lemma val_ei e i : (ev (ei i) == inside_value (flat occ val) e i)%Q.
  Proof.
    destruct i; cbn [ei inside_value]; rewrite ?val_e2, ?val_es, ?(val_eb e); try reflexivity.
  Qed.
  Lemma val_ea e a : (ev (ea a) == atom_value (flat occ val) e a)%Q.
  Proof.
    destruct a; cbn [ea expr_value atom_value]; try reflexivity; try apply val_ei.
    rewrite (sgn_ext _ _ (val_ei e i)). reflexivity.
  Qed.
  Lemma val_eprod e l : l <> [] -> (ev (eprod l) == qprod (map (atom_value (flat occ val) e) l))%Q.
  Proof.
    destruct l as [|a r]; [congruence|]. intros _. cbn [eprod].
    assert (S : forall l x, (ev (fold_left (fun x b => EMul x (ea b)) l x)
                == ev x * qprod (map (atom_value (flat occ val) e) l))%Q).
    { induction l as [|b l IH]; intros x; unfold qprod in *; cbn [fold_left map fold_right]; [ring|]. rewrite IH.
      cbn [expr_value]. rewrite (val_ea e b). ring. }
    rewrite S, (val_ea e a). reflexivity.
  Qed.
  Lemma val_erule r : wf_rule r -> (ev (erule r) == rule_value (flat occ val) r)%Q.
  Proof.
    intros (Hne & Hw & _). destruct r as [|t r]; [congruence|]. inversion Hw as [|? ? [Ht _] Hw']; subst. cbn [erule].
    assert (S : forall l x, Forall wf_term l -> (ev (fold_left (fun x u => e2 (t_sign u) x (eprod (t_atoms u))) l x)
                == ev x + rule_value (flat occ val) l)%Q).
    { induction l as [|u l IH]; intros x Hl; unfold rule_value, qsum in *; cbn [fold_left map fold_right]; [ring|].
      inversion Hl as [|? ? [Hu _] Hl']; subst. rewrite IH by assumption. rewrite val_e2. unfold term_value, signed.
      rewrite (val_eprod (match dependency (t_atoms u) with Some e => e | None => Pre end) _ Hu). ring. }
    rewrite S by assumption. rewrite val_es. unfold rule_value, qsum. cbn [map fold_right]. unfold term_value at 3. unfold signed.
    rewrite (val_eprod (match dependency (t_atoms t) with Some e => e | None => Pre end) _ Ht). reflexivity.
  Qed.
End Embed.

(** C65: the value of a rule of the documented grammar is that of an ordinary arithmetic expression with the same
    text, when the traces do not depend on the time of evaluation *)
Theorem grammar_is_arithmetic : forall r, wf_rule r ->
  exists x, well_bracketed x /\ show_expr x = show_rule r /\
            forall occ val, (expr_value occ val x == rule_value (flat occ val) r)%Q.
Proof.
  intros r Hr. exists (erule r). split; [|split; [|intros occ val; now apply val_erule]].
  - destruct Hr as (Hne & Hw & _). destruct r as [|t r]; [congruence|]. inversion Hw as [|? ? [Ht Ha] Hw']; subst. cbn [erule].
    assert (G : well_bracketed (es (t_sign t) (eprod (t_atoms t)))) by (apply wb_es; apply (wb_eprod _ Ht Ha)).
    revert G. generalize (es (t_sign t) (eprod (t_atoms t))). clear -Hw'.
    induction Hw' as [|u l [Hu Hua] Hl IH]; intros x G; [exact G|]. cbn [fold_left]. apply IH.
    apply wb_e2; [exact G|apply (wb_eprod _ Hu Hua)|apply (wb_eprod _ Hu Hua)].
  - destruct Hr as (Hne & Hw & Hs). destruct r as [|t r]; [congruence|]. inversion Hw as [|? ? [Ht Ha] Hw']; subst. cbn [erule].
    cbn [tl] in Hs.
    assert (S : forall x, show_expr (fold_left (fun x u => e2 (t_sign u) x (eprod (t_atoms u))) r x) = show_expr x ++ show_rule r).
    { clear -Hw' Hs. induction Hw' as [|u l [Hu Hua] Hl IH]; intros x; [unfold show_rule; cbn; now rewrite app_nil_r|].
      inversion Hs; subst. cbn [fold_left]. rewrite IH by assumption. rewrite show_e2 by assumption.
      rewrite (show_eprod _ Hu Hua). unfold show_rule. cbn [map List.concat]. unfold show_term at 2. now rewrite <- !app_assoc. }
    rewrite S, show_es, (show_eprod _ Ht Ha). unfold show_rule. cbn [map List.concat]. unfold show_term at 2. now rewrite <- app_assoc.
Qed.

(** ** Outside of it: accepted, with another value *)
Definition writes_expr (s : string) (x : expr) : Prop :=
  filter (fun c => negb (Ascii.eqb " " c)) (list_ascii_of_string s) = show_expr x.
(** the claim without the restriction to the documented grammar *)
Definition every_accepted_expression_is_right : Prop :=
  forall s x, well_bracketed x -> writes_expr s x ->
  forall ps k, compile s = Some (ps, k) ->
  forall occ val, (forall e, occ e == 0 \/ occ e == 1)%Q -> (series_value (flat occ val) ps == expr_value occ val x)%Q.
Definition ones : event -> Q := fun _ => 1%Q.
Definition threes : var -> Q := fun _ => 3%Q.
(** the value of a compiled rule when all events happen and all variables are 3 *)
Definition sample (s : string) : option Q := omap (fun p => Qred (series_value (flat ones threes) (fst p))) (compile s).
Definition num (s : string) : expr := ELit (Plain (list_ascii_of_string s)).
Definition wrong (s : string) (x : expr) (v : Q) : Prop :=
  well_bracketed x /\ writes_expr s x /\ sample s = Some v /\ ~ (v == expr_value ones threes x)%Q.
Lemma numeral_ok (s : string) : (forallb is_digit (list_ascii_of_string s) = true) ->
  negb (is_char "0" (hd "0"%char (list_ascii_of_string s))) = true -> is_numeral (list_ascii_of_string s).
Proof.
  intros H1 H2. assert (Hne : list_ascii_of_string s <> []) by (intros E; rewrite E in H2; discriminate).
  split; [exact Hne|]. split.
  - apply Forall_forall. intros c Hc. rewrite forallb_forall in H1. specialize (H1 c Hc). clear -H1.
    destruct c as [[|] [|] [|] [|] [|] [|] [|] [|]]; try discriminate H1; cbn; tauto.
  - right. unfold is_char in H2. apply negb_true_iff in H2. apply Ascii.eqb_neq in H2. congruence.
Qed.
Ltac wrong_tac := split; [cbn [well_bracketed prec num wf_lit]; repeat match goal with |- _ /\ _ => split end; try exact I; try (apply numeral_ok; reflexivity); lia|split; [reflexivity|split; [vm_compute; reflexivity|vm_compute; discriminate]]].
Theorem silently_miscompiled :
  (* a minus sign before a single variable in brackets, or in sgn, is dropped *)
  wrong "x0*(-w)" (EMul (EEvent Pre) (EBracket (ENeg (EVar W)))) 3 /\
  wrong "x0*sgn(-w)" (EMul (EEvent Pre) (ESgn (ENeg (EVar W)))) 1 /\
  (* inside brackets a product is compiled as a sum *)
  wrong "x0*(x1*2)" (EMul (EEvent Pre) (EBracket (EMul (EVar X1) (num "2")))) 5 /\
  wrong "x0*(2*x1)" (EMul (EEvent Pre) (EBracket (EMul (num "2") (EVar X1)))) 5 /\
  (* the third summand is dropped *)
  wrong "x0*(x1+2+4)" (EMul (EEvent Pre) (EBracket (EAdd (EAdd (EVar X1) (num "2")) (num "4")))) 5 /\
  (* double brackets are dropped *)
  wrong "x0*((x1+2))" (EMul (EEvent Pre) (EBracket (EBracket (EAdd (EVar X1) (num "2"))))) 1.
Proof. repeat match goal with |- _ /\ _ => split end; wrong_tac. Qed.
(** C65: the unrestricted claim is false *)
Theorem every_accepted_expression_is_right_refuted : ~ every_accepted_expression_is_right.
Proof.
  intros H. destruct silently_miscompiled as ((Hb & Hw & Hs & Hv) & _).
  unfold sample in Hs. destruct (compile "x0*(-w)") as [[ps k]|] eqn:E; [|discriminate].
  cbn [omap fst] in Hs. injection Hs as Hs. apply Hv. rewrite <- Hs. rewrite Qred_correct.
  apply (H _ _ Hb Hw ps k E). intros e. right. reflexivity.
Qed.
(** C65: a dependency alone in brackets is dropped, too: the product is applied at every y0, whether or not there
    is an x0 *)
Theorem bracketed_dependency_dropped :
  exists ps, compile "y0*(x0)" = Some (ps, None) /\
  forall rho, (series_value rho ps == occurs rho Post)%Q.
Proof.
  eexists. split; [vm_compute; reflexivity|]. intros rho. unfold series_value, compiled_value, qsum, qprod, product_event.
  cbn [map rp_dep rp_mant rp_exp rp_factors fold_right]. change (Qpower 2 (7 - 7)) with 1%Q. ring.
Qed.
(** C65: names that do not exist are read as something else: x10 is x1*0, u10 is u1*0 *)
Theorem unknown_names_accepted :
  (exists ps, compile "x0*x10" = Some (ps, None) /\ forall rho, (series_value rho ps == 0)%Q) /\
  (exists ps, compile "u10*x1" = Some (ps, Some 1) /\ forall rho, (series_value rho ps == 0)%Q).
Proof.
  split; (eexists; split; [vm_compute; reflexivity|]); intros rho; unfold series_value, compiled_value, qsum, qprod;
    cbn [map rp_dep rp_mant rp_exp rp_factors fold_right]; ring.
Qed.
(** C65: the 53-bit restriction is needed: 2^60+2 is rounded *)
Theorem large_literal_rounded :
  exists ps, compile "1152921504606846978*2^-60*x0" = Some (ps, None) /\
  (forall rho, series_value rho ps == occurs rho Pre)%Q.
Proof.
  eexists. split; [vm_compute; reflexivity|]. intros rho. unfold series_value, compiled_value, qsum, qprod, product_event.
  cbn [map rp_dep rp_mant rp_exp rp_factors fold_right]. change (Qpower 2 (5 - 7)) with (1#4)%Q. ring.
Qed.

(** ** A rule that meets the hypotheses *)
Definition nm (s : string) : numeral := list_ascii_of_string s.
Definition sample_rule : rule :=
  [ {| t_sign := NoSign; t_atoms := [ALit (Plain (nm "3")); ALit (Pow Minus (nm "2")); AEvent Pre; AVar Y1] |};
    {| t_sign := Minus; t_atoms := [AEvent Post; ABracket (VarLit NoSign (BVar W) Minus (Plain (nm "4"))); ASgn (InVar NoSign T);
                                    ABracket (LitVar NoSign (Plain (nm "16")) Minus (BVar X1))] |};
    {| t_sign := Plus; t_atoms := [AEvent (Periodic 3); AEvent Pre; ALit (Scaled (nm "40") Minus (nm "5")); AVar D] |} ].
Definition sample_string : string := "3*2^-2*x0*y1 - y0*(w - 4)*sgn(t)*(16-x1) + u3*x0*40*2^-5*d".
Theorem sample_rule_ok :
  wf_rule sample_rule /\ small sample_rule /\ writes sample_string sample_rule /\ acceptable sample_rule /\
  sample sample_string = Some 19%Q.
Proof.
  assert (H3 : is_numeral (nm "3")) by (apply numeral_ok; reflexivity).
  assert (H2 : is_numeral (nm "2")) by (apply numeral_ok; reflexivity).
  assert (H4 : is_numeral (nm "4")) by (apply numeral_ok; reflexivity).
  assert (H16 : is_numeral (nm "16")) by (apply numeral_ok; reflexivity).
  assert (H40 : is_numeral (nm "40")) by (apply numeral_ok; reflexivity).
  assert (H5 : is_numeral (nm "5")) by (apply numeral_ok; reflexivity).
  assert (W : wf_rule sample_rule).
  { split; [discriminate|]. split; [|repeat constructor; discriminate].
    assert (N : forall c : sign, c = Minus -> c <> NoSign) by (intros c ->; discriminate).
    repeat apply Forall_cons; try apply Forall_nil; (split; [discriminate|]); cbn [t_atoms];
      repeat apply Forall_cons; try apply Forall_nil; cbn [wf_atom wf_lit wf_bracket wf_sgn];
      repeat match goal with |- _ /\ _ => split end; try exact I; try assumption; try discriminate; try lia.
    right. right. reflexivity. }
  assert (S : small sample_rule) by (intros t [<-|[<-|[<-|[]]]]; vm_compute; reflexivity).
  assert (R : writes sample_string sample_rule) by (vm_compute; reflexivity).
  split; [exact W|]. split; [exact S|]. split; [exact R|]. split; [|vm_compute; reflexivity].
  apply (rule_accepted_iff sample_string sample_rule W S R). eexists. eexists. vm_compute. reflexivity.
Qed.

(** ** Fuel *)
Lemma digits_len s d r : digits s = (d, r) -> (List.length d + List.length r = List.length s)%nat.
Proof.
  revert d r. induction s as [|c s IH]; intros d r H; cbn [digits] in H; [injection H as <- <-; reflexivity|].
  destruct (is_digit c); [|injection H as <- <-; reflexivity].
  destruct (digits s) as [d' r'] eqn:E. injection H as <- <-. cbn [List.length]. rewrite <- (IH d' r' eq_refl). lia.
Qed.
Lemma after_len w s r : after w s = Some r -> (List.length w + List.length r = List.length s)%nat.
Proof.
  revert s. induction w as [|a w IH]; intros s H; cbn [after] in H; [injection H as ->; reflexivity|].
  destruct s as [|c s]; [discriminate|]. destruct (is_char a c); [|discriminate]. cbn [List.length]. rewrite <- (IH s H). lia.
Qed.
Lemma pow_tail_len s sg d r : pow_tail s = Some (sg, d, r) -> (List.length r < List.length s)%nat.
Proof.
  unfold pow_tail. destruct (after ["2"; "^"]%char s) as [s1|] eqn:E1; [|discriminate].
  apply after_len in E1. cbn [List.length] in E1.
  destruct (opt_sign s1) as [g s2] eqn:E2. destruct (digits s2) as [d' s3] eqn:E3. apply digits_len in E3.
  assert (List.length s2 <= List.length s1)%nat.
  { unfold opt_sign in E2. destruct s1 as [|c s1']; [injection E2 as <- <-; reflexivity|].
    destruct (is_char "+" c); [injection E2 as <- <-; cbn; lia|]. destruct (is_char "-" c); injection E2 as <- <-; cbn; lia. }
  destruct d'; [discriminate|]. intros H'. injection H' as <- <- <-. lia.
Qed.
Lemma find_literal_len s y r : find_literal s = Found y r -> (List.length r < List.length s)%nat.
Proof.
  unfold find_literal. destruct (digits s) as [d s1] eqn:E1. apply digits_len in E1.
  set (t0 := match d with [] => None | _ => match after ["*"]%char s1 with Some r' => pow_tail r' | None => None end end).
  destruct t0 as [[[sg e] rest]|] eqn:E0.
  - intros H. assert (r = rest) by (destruct (eval_digits d), (eval_digits e); congruence). subst rest.
    unfold t0 in E0. destruct d as [|c d]; [discriminate|]. destruct (after ["*"]%char s1) as [s2|] eqn:E2; [|discriminate].
    apply after_len in E2. apply pow_tail_len in E0. cbn [List.length] in *. lia.
  - destruct (pow_tail s) as [[[sg e] rest]|] eqn:E3.
    + intros H. assert (r = rest) by (destruct (eval_digits e); congruence). subst rest. now apply pow_tail_len in E3.
    + destruct d as [|c d]; [discriminate|]. destruct (eval_digits (c :: d)); [|discriminate].
      intros H. injection H as _ <-. cbn [List.length] in E1. lia.
Qed.
Lemma split_close_len s : forall n a b, split_close n s = Some (a, b) -> (List.length a + List.length b < List.length s)%nat.
Proof.
  induction s as [|c s IH]; intros n a b H; cbn [split_close] in H; [discriminate|].
  destruct (is_char ")" c).
  - destruct n as [|n]; [injection H as <- <-; cbn; lia|].
    destruct (split_close n s) as [[a' b']|] eqn:E; [|discriminate]. cbn [omap fst snd] in H. injection H as <- <-.
    cbn [List.length]. specialize (IH _ _ _ E). lia.
  - destruct (split_close (if is_char "(" c then S n else n) s) as [[a' b']|] eqn:E; [|discriminate].
    cbn [omap fst snd] in H. injection H as <- <-. cbn [List.length]. specialize (IH _ _ _ E). lia.
Qed.
Lemma word_len w y s z r : w <> [] -> word w y s = Found z r -> (List.length r < List.length s)%nat.
Proof.
  intros Hw. unfold word. destruct (after w s) eqn:E; [|discriminate]. intros H. injection H as _ <-.
  apply after_len in E. destruct w; [congruence|cbn [List.length] in E; lia].
Qed.
Lemma find_uk_len s y r : find_uk s = Found y r -> (List.length r < List.length s)%nat.
Proof.
  unfold find_uk. destruct (after ["u"]%char s) as [[|c t]|] eqn:E; try discriminate. apply after_len in E.
  destruct (is_digit c); [|discriminate]. intros H. injection H as _ <-. cbn [List.length] in E. lia.
Qed.
Definition agree (n : nat) (f g : chars -> option (list sym)) : Prop := forall s, (List.length s < n)%nat -> f s = g s.
Lemma find_expr_agree f g w mk s : agree (List.length s) f g -> w <> [] -> find_expr f w mk s = find_expr g w mk s.
Proof.
  intros H Hw. unfold find_expr. destruct (after w s) as [r|] eqn:E; [|reflexivity]. apply after_len in E.
  destruct (split_close 0 r) as [[a b]|] eqn:E2; [|reflexivity]. apply split_close_len in E2. rewrite (H a) by lia. reflexivity.
Qed.
Lemma find_expr_len f w mk s y r : w <> [] -> find_expr f w mk s = Found y r -> (List.length r < List.length s)%nat.
Proof.
  intros Hw. unfold find_expr. destruct (after w s) as [t|] eqn:E; [|discriminate]. apply after_len in E.
  destruct (split_close 0 t) as [[a b]|] eqn:E2; [|discriminate]. apply split_close_len in E2.
  destruct (f a); [|discriminate]. intros H. injection H as _ <-. lia.
Qed.
Lemma first_found_len l s y r : (forall f, In f l -> forall y' r', f s = Found y' r' -> (List.length r' < List.length s)%nat) ->
  first_found l s = Found y r -> (List.length r < List.length s)%nat.
Proof.
  induction l as [|f l IH]; intros H E; cbn [first_found] in E; [discriminate|].
  destruct (f s) as [| |y' r'] eqn:Ef.
  - apply IH; [|exact E]. intros h Hh. apply H. right. exact Hh.
  - discriminate.
  - injection E as <- <-. apply (H f (or_introl eq_refl) _ _ Ef).
Qed.
Lemma find_next_len f s y r : find_next f s = Found y r -> (List.length r < List.length s)%nat.
Proof.
  apply first_found_len. intros h Hh y' r'. unfold finders in Hh. cbn [In] in Hh.
  repeat (destruct Hh as [<-|Hh];
    [first [apply word_len; discriminate | apply find_uk_len | apply find_expr_len; discriminate | apply find_literal_len]|]).
  destruct Hh.
Qed.
Lemma find_next_agree f g s : agree (List.length s) f g -> find_next f s = find_next g s.
Proof.
  intros H. unfold find_next, finders. cbn [first_found].
  rewrite !(find_expr_agree f g) by (auto; discriminate). reflexivity.
Qed.
Lemma parse_fuel_agree : forall n m s, (List.length s < n)%nat -> (List.length s < m)%nat -> parse_fuel n s = parse_fuel m s.
Proof.
  induction n as [|n IH]; intros m s Hn Hm; [lia|]. destruct m as [|m]; [lia|]. cbn [parse_fuel].
  rewrite (find_next_agree (parse_fuel n) (parse_fuel m)) by (intros t Ht; apply IH; lia).
  destruct (find_next (parse_fuel m) s) as [| |y r] eqn:E; try reflexivity. apply find_next_len in E.
  destruct r as [|c r]; [reflexivity|]. rewrite (IH m) by lia. reflexivity.
Qed.
(** C65: [parse] satisfies the recursion of the code (the fuel never runs out) *)
Theorem parse_unfold : forall s, parse s =
  match find_next parse s with
  | Found y [] => Some [y]
  | Found y r => omap (cons y) (parse r)
  | _ => None
  end.
Proof.
  intros s. unfold parse at 1. cbn [parse_fuel].
  rewrite (find_next_agree (parse_fuel (List.length s)) parse) by (intros t Ht; unfold parse; apply parse_fuel_agree; lia).
  destruct (find_next parse s) as [| |y r] eqn:E; try reflexivity. apply find_next_len in E.
  destruct r as [|c r]; [reflexivity|]. unfold parse. f_equal. apply parse_fuel_agree; lia.
Qed.

(** ** The decimation exponent of the LearningRule *)
Definition no_u (s : chars) : Prop := Forall (fun c => c <> "u"%char) s.
Lemma find_uks_skip w : no_u w -> forall rest n, (List.length (w ++ rest) <= n)%nat ->
  exists m, (List.length rest <= m)%nat /\ find_uks n (w ++ rest) = find_uks m rest.
Proof.
  induction 1 as [|c w Hc Hw IH]; intros rest n Hn; [exists n; split; [exact Hn|reflexivity]|].
  cbn [List.app List.length] in Hn. destruct n as [|n]; [lia|]. cbn [List.app find_uks]. unfold is_char.
  rewrite (proj2 (Ascii.eqb_neq "u" c)) by congruence. apply IH. lia.
Qed.
Definition kchar (k : nat) : ascii := nth k digit_chars "0"%char.
Lemma find_uks_event k rest n : (k < 10)%nat -> not_digit_first rest -> (S (S (List.length rest)) <= n)%nat ->
  exists m, (List.length rest <= m)%nat /\ find_uks n (show_event (Periodic k) ++ rest) = [kchar k] :: find_uks m rest.
Proof.
  intros Hk Hr Hn. destruct n as [|n]; [lia|]. exists n. split; [lia|].
  change (show_event (Periodic k) ++ rest) with ("u"%char :: [kchar k] ++ rest). cbn [find_uks].
  change (is_char "u" "u") with true. cbv iota. rewrite digits_app; [reflexivity| |exact Hr].
  constructor; [|constructor]. apply nth_In. exact Hk.
Qed.
Lemma nu_numeral n : is_numeral n -> no_u n.
Proof.
  intros (_ & Hd & _). eapply Forall_impl; [|exact Hd]. intros c Hc. cbn in Hc.
  repeat (destruct Hc as [<-|Hc]; [discriminate|]). destruct Hc.
Qed.
Lemma nu_app a b : no_u a -> no_u b -> no_u (a ++ b).
Proof. unfold no_u. intros. apply Forall_app. tauto. Qed.
Lemma nu_sign s : no_u (show_sign s).
Proof. destruct s; repeat constructor; discriminate. Qed.
Lemma nu_lit l : wf_lit l -> no_u (show_lit l).
Proof.
  assert (H2 : no_u (list_ascii_of_string "2^")) by (repeat constructor; discriminate).
  assert (H3 : no_u (list_ascii_of_string "*2^")) by (repeat constructor; discriminate).
  destruct l; cbn [wf_lit show_lit]; intros H; repeat apply nu_app; auto using nu_numeral, nu_sign; apply nu_numeral; tauto.
Qed.
Lemma nu_base b : no_u (show_base b).
Proof. destruct b as [v| |]; [destruct v| |]; repeat constructor; discriminate. Qed.
Lemma nu_inside i : inside_lit_ok i -> no_u (show_inside i).
Proof.
  destruct i; cbn [inside_lit_ok show_inside]; intros H; repeat apply nu_app; auto using nu_sign, nu_lit, nu_base; try (apply nu_lit; tauto).
  destruct v; repeat constructor; discriminate.
Qed.
Lemma nu_atom a : wf_atom a -> aperiod a = None -> no_u (show_atom a).
Proof.
  destruct a as [e|v|l|i|i]; cbn [wf_atom aperiod show_atom]; intros H E.
  - destruct e; try discriminate E; repeat constructor; discriminate.
  - destruct v; repeat constructor; discriminate.
  - now apply nu_lit.
  - constructor; [discriminate|]. apply nu_app; [apply nu_inside; now apply wf_bracket_ok|repeat constructor; discriminate].
  - apply nu_app; [repeat constructor; discriminate|]. apply nu_app; [apply nu_inside; now apply wf_sgn_ok|repeat constructor; discriminate].
Qed.
Lemma find_uks_atom a rest n : wf_atom a -> not_digit_first rest -> (List.length (show_atom a ++ rest) <= n)%nat ->
  exists m, (List.length rest <= m)%nat /\
    find_uks n (show_atom a ++ rest) = map (fun k => [kchar k]) (periods [a]) ++ find_uks m rest.
Proof.
  intros Hw Hr Hn. rewrite periods_cons. destruct (aperiod a) as [k|] eqn:E.
  - destruct a as [e|v|l|i|i]; try discriminate E. destruct e as [| |k']; try discriminate E. injection E as ->.
    apply find_uks_event; [exact Hw|exact Hr|exact Hn].
  - apply find_uks_skip; [now apply nu_atom|exact Hn].
Qed.
Lemma find_uks_atoms l : l <> [] -> Forall wf_atom l -> forall rest n, not_digit_first rest ->
  (List.length (show_atoms l ++ rest) <= n)%nat ->
  exists m, (List.length rest <= m)%nat /\
    find_uks n (show_atoms l ++ rest) = map (fun k => [kchar k]) (periods l) ++ find_uks m rest.
Proof.
  induction l as [|a l IH]; intros Hne Hw rest n Hr Hn; [congruence|]. inversion Hw; subst.
  destruct l as [|b l].
  - cbn [show_atoms] in *. now apply find_uks_atom.
  - rewrite show_atoms_cons in * by discriminate. rewrite <- app_assoc in *. cbn [List.app] in Hn |- *.
    destruct (find_uks_atom a ("*"%char :: show_atoms (b :: l) ++ rest) n ltac:(assumption) eq_refl Hn) as (m1 & Hm1 & E1).
    cbn [List.length] in Hm1. destruct m1 as [|m1]; [lia|].
    destruct (IH ltac:(discriminate) ltac:(assumption) rest m1 Hr ltac:(lia)) as (m2 & Hm2 & E2).
    exists m2. split; [exact Hm2|]. rewrite E1. cbn [find_uks]. change (is_char "u" "*") with false. cbv iota. rewrite E2.
    rewrite app_assoc, <- map_app. f_equal. f_equal. unfold periods. cbn [flat_map]. now rewrite app_nil_r.
Qed.
Definition all_periods (r : rule) : list nat := flat_map (fun t => periods (t_atoms t)) r.
Lemma find_uks_rule r : Forall wf_term r -> Forall (fun t => t_sign t <> NoSign) (tl r) -> forall n,
  (List.length (show_rule r) <= n)%nat -> find_uks n (show_rule r) = map (fun k => [kchar k]) (all_periods r).
Proof.
  induction 1 as [|t r [Hne Ht] Hw IH]; intros Hs n Hn; [destruct n; reflexivity|]. cbn [tl] in Hs.
  assert (Hs' : Forall (fun t => t_sign t <> NoSign) (tl r)) by (destruct r; [constructor|now inversion Hs]).
  change (show_rule (t :: r)) with (show_term t ++ show_rule r) in *. unfold show_term in *. rewrite <- app_assoc in *.
  destruct (find_uks_skip (show_sign (t_sign t)) (nu_sign _) (show_atoms (t_atoms t) ++ show_rule r) n Hn) as (m1 & Hm1 & E1).
  assert (Hr : not_digit_first (show_rule r)).
  { pose proof (sep_rule r Hs) as S. rewrite texts_rule in S. destruct (show_rule r) as [|c x]; [exact I|].
    destruct S as [->| ->]; reflexivity. }
  destruct (find_uks_atoms (t_atoms t) Hne Ht (show_rule r) m1 Hr Hm1) as (m2 & Hm2 & E2).
  rewrite E1, E2, (IH Hs' m2 Hm2). unfold all_periods. cbn [flat_map]. now rewrite map_app.
Qed.
Lemma kchar_inj a b : (a < 10)%nat -> (b < 10)%nat -> kchar a = kchar b -> a = b.
Proof.
  intros Ha Hb. do 10 (destruct a as [|a]; [do 10 (destruct b as [|b]; [first [reflexivity|discriminate]|]); lia|]). lia.
Qed.
Lemma kchar_val k : (k < 10)%nat -> digit_val (kchar k) = Z.of_nat k.
Proof. intros H. do 10 (destruct k as [|k]; [reflexivity|]). lia. Qed.
Lemma period_range l : Forall wf_atom l -> forall k, In k (periods l) -> (k < 10)%nat.
Proof.
  induction 1 as [|a l Ha Hl IH]; intros k Hk; [destruct Hk|]. rewrite periods_cons in Hk.
  destruct (aperiod a) as [k'|] eqn:E; [|now apply IH]. destruct Hk as [->|Hk]; [|now apply IH].
  destruct a as [e|v|x|i|i]; try discriminate E. destruct e; try discriminate E. injection E as ->. exact Ha.
Qed.
(** C65: for rules written without spaces, the LearningRule refuses different periods in dw, dd, dt and otherwise
    uses the period written *)
Theorem learning_rule_period : forall rs : list rule, Forall wf_rule rs ->
  forall ss, map list_ascii_of_string ss = map show_rule rs ->
  let ks := flat_map all_periods rs in
  (validate_uk ss = None <-> exists k k', In k ks /\ In k' ks /\ k <> k') /\
  (validate_uk ss = Some None <-> ks = []) /\
  (forall k, validate_uk ss = Some (Some (Z.of_nat k)) <-> In k ks /\ forall k', In k' ks -> k' = k).
Proof.
  intros rs Hw ss E ks.
  assert (F : flat_map (fun s => let c := list_ascii_of_string s in find_uks (List.length c) c) ss = @map nat chars (fun k => [kchar k]) ks).
  { unfold ks. clear ks. revert rs Hw E. induction ss as [|s ss IH]; intros rs Hw E; destruct rs as [|r rs]; try discriminate E; [reflexivity|].
    cbn [map] in E. injection E as E1 E2. inversion Hw as [|? ? (Hne & Hr & Hs) Hw']; subst. cbn [flat_map]. cbv zeta.
    rewrite (IH rs Hw' E2), E1, map_app. f_equal. now apply find_uks_rule. }
  assert (R : forall k, In k ks -> (k < 10)%nat).
  { intros k Hk. unfold ks in Hk. apply in_flat_map in Hk. destruct Hk as (r & Hr & Hk).
    unfold all_periods in Hk. apply in_flat_map in Hk. destruct Hk as (t & Ht & Hk).
    rewrite Forall_forall in Hw. destruct (Hw r Hr) as (_ & Hwt & _). rewrite Forall_forall in Hwt.
    destruct (Hwt t Ht) as [_ Ha]. exact (period_range _ Ha k Hk). }
  unfold validate_uk. cbv zeta in F |- *. rewrite F. clear F E Hw. destruct ks as [|k0 ks]; cbn [map].
  - split; [split; [discriminate|intros (k & k' & [] & _)]|]. split; [tauto|].
    intros k. split; [discriminate|intros [[] _]].
  - assert (B : forallb (same_digits [kchar k0]) (@map nat chars (fun k => [kchar k]) ks) = true <-> forall k, In k ks -> k = k0).
    { rewrite forallb_forall. split.
      - intros H k Hk. specialize (H [kchar k] (in_map _ _ _ Hk)). unfold same_digits in H.
        destruct (list_eq_dec ascii_dec [kchar k0] [kchar k]) as [e|]; [|discriminate]. injection e as e.
        symmetry. apply kchar_inj; auto; apply R; [left; reflexivity|right; exact Hk].
      - intros H x Hx. apply in_map_iff in Hx. destruct Hx as (k & <- & Hk). rewrite (H k Hk). unfold same_digits.
        destruct (list_eq_dec ascii_dec [kchar k0] [kchar k0]); [reflexivity|congruence]. }
    assert (V : digit_val (kchar k0) = Z.of_nat k0) by (apply kchar_val, R; left; reflexivity).
    destruct (forallb (same_digits [kchar k0]) (@map nat chars (fun k => [kchar k]) ks)) eqn:Eb.
    + pose proof (proj1 B eq_refl) as A. split; [|split].
      * split; [discriminate|]. intros (k & k' & Hk & Hk' & N). exfalso. apply N.
        destruct Hk as [<-|Hk], Hk' as [<-|Hk']; try reflexivity; try (rewrite (A _ Hk)); try (rewrite (A _ Hk')); reflexivity.
      * split; discriminate.
      * intros k. rewrite V. split.
        -- intros H. injection H as H. apply Nat2Z.inj in H. subst k. split; [left; reflexivity|].
           intros k' [<-|Hk']; [reflexivity|exact (A k' Hk')].
        -- intros [_ H]. rewrite (H k0 (or_introl eq_refl)). reflexivity.
    + split; [|split].
      * split; [|reflexivity]. intros _.
        destruct (Exists_dec (fun k => k <> k0) ks) as [Ex|Nx].
        { intros k. destruct (Nat.eq_dec k k0); [right; tauto|left; assumption]. }
        { apply Exists_exists in Ex. destruct Ex as (k & Hk & N). exists k0, k. split; [left; reflexivity|].
          split; [right; exact Hk|congruence]. }
        { exfalso. assert (forall k, In k ks -> k = k0).
          { intros k Hk. destruct (Nat.eq_dec k k0) as [e|n]; [exact e|]. exfalso. apply Nx. apply Exists_exists. eauto. }
          apply B in H. discriminate. }
      * split; discriminate.
      * intros k. split; [discriminate|]. intros [Hk H]. exfalso.
        assert (forall k', In k' ks -> k' = k0).
        { intros k' Hk'. rewrite (H k' (or_intror Hk')). symmetry. apply H. left. reflexivity. }
        apply B in H0. discriminate.
Qed.
(** C65: with a space inside u<k> the two disagree: the rule has period 3, the LearningRule none, and
    (Learning_Model.u_value) the dependency u is then 0 in every epoch: the rule silently never applies *)
Theorem spaced_period_lost :
  validate_uk ["u 3*x1"%string] = Some None /\
  exists ps, compile "u 3*x1" = Some (ps, Some 3) /\
  forall c t, cfg_decimate c = None -> u_value c t = 0.
Proof.
  split; [vm_compute; reflexivity|]. eexists. split; [vm_compute; reflexivity|]. intros c t H. unfold u_value. now rewrite H.
Qed.

(** ** Active traces *)
Definition trace_var (tr : trace) : var := match tr with TX1 => X1 | TX2 => X2 | TY1 => Y1 | TY2 => Y2 | TY3 => Y3 end.
Lemma var_state_trace v tr : var_state v = VTrace tr <-> v = trace_var tr.
Proof. destruct v, tr; cbn; split; intros H; (reflexivity || discriminate). Qed.
Lemma trace_eqb_spec a b : trace_eqb a b = true <-> a = b.
Proof. destruct a, b; cbn; split; intros H; (reflexivity || discriminate). Qed.
Lemma dep_eqb_spec a b : dep_eqb a b = true <-> a = b.
Proof. destruct a, b; cbn; split; intros H; (reflexivity || discriminate). Qed.
Lemma afactors_trace h a tr : wf_atom a ->
  (exists f, In f (afactors h a) /\ rf_var f = VTrace tr) <-> atom_var a = Some (trace_var tr).
Proof.
  intros Hw. destruct a as [e|v|l|i|i]; cbn [afactors atom_var].
  - split; [|discriminate]. intros (f & Hf & E). destruct e; try destruct h; cbn in Hf; destruct Hf as [<-|[]] || destruct Hf; discriminate E.
  - split; [intros (f & [<-|[]] & E); cbn in E; apply var_state_trace in E; now subst|].
    intros E. injection E as ->. eexists. split; [left; reflexivity|]. now apply var_state_trace.
  - split; [intros (f & [] & _)|discriminate].
  - destruct i as [s1 v|s1 l|s1 b s2 l|s1 l s2 b]; cbn [inside_var].
    + split; [intros (f & [<-|[]] & E); cbn in E; apply var_state_trace in E; now subst|].
      intros E. injection E as ->. eexists. split; [left; reflexivity|]. now apply var_state_trace.
    + split; [intros (f & [] & _)|discriminate].
    + split.
      * intros (f & [<-|[]] & E). cbn in E. destruct b as [v| |]; try discriminate E. apply var_state_trace in E. now subst.
      * intros E. destruct b as [v| |]; try discriminate E. injection E as ->. eexists. split; [left; reflexivity|]. now apply var_state_trace.
    + split.
      * intros (f & [<-|[]] & E). cbn in E. destruct b as [v| |]; try discriminate E. apply var_state_trace in E. now subst.
      * intros E. destruct b as [v| |]; try discriminate E. injection E as ->. eexists. split; [left; reflexivity|]. now apply var_state_trace.
  - destruct i as [s1 v|s1 l|s1 b s2 l|s1 l s2 b]; cbn [inside_var].
    + split; [intros (f & [<-|[]] & E); cbn in E; apply var_state_trace in E; now subst|].
      intros E. injection E as ->. eexists. split; [left; reflexivity|]. now apply var_state_trace.
    + split; [intros (f & [] & _)|discriminate].
    + split.
      * intros (f & [<-|[]] & E). cbn in E. destruct b as [v| |]; try discriminate E. apply var_state_trace in E. now subst.
      * intros E. destruct b as [v| |]; try discriminate E. injection E as ->. eexists. split; [left; reflexivity|]. now apply var_state_trace.
    + split.
      * intros (f & [<-|[]] & E). cbn in E. destruct b as [v| |]; try discriminate E. apply var_state_trace in E. now subst.
      * intros E. destruct b as [v| |]; try discriminate E. injection E as ->. eexists. split; [left; reflexivity|]. now apply var_state_trace.
Qed.
Lemma closed_trace tr l : Forall wf_atom l -> forall g,
  (exists f, In f (g_factors (closed g l)) /\ rf_var f = VTrace tr) <->
  (exists f, In f (g_factors g) /\ rf_var f = VTrace tr) \/ exists a, In a l /\ atom_var a = Some (trace_var tr).
Proof.
  induction 1 as [|a l Ha Hl IH]; intros g.
  - unfold closed. cbn. split; [tauto|]. intros [H|(a & [] & _)]. exact H.
  - change (closed g (a :: l)) with (closed (closed1 g a) l). rewrite IH. cbn [closed1 g_factors].
    pose proof (afactors_trace (has g) a tr Ha) as A. split.
    + intros [(f & Hf & E)|(b & Hb & E)].
      * apply in_app_or in Hf. destruct Hf as [Hf|Hf]; [left; eauto|]. right. exists a. split; [left; reflexivity|]. apply A. eauto.
      * right. exists b. split; [right; exact Hb|exact E].
    + intros [(f & Hf & E)|(b & [<-|Hb] & E)].
      * left. exists f. split; [apply in_or_app; left; exact Hf|exact E].
      * apply A in E. destruct E as (f & Hf & E). left. exists f. split; [apply in_or_app; right; exact Hf|exact E].
      * right. eauto.
Qed.
Lemma norm_mentions l v : (exists a, In a (norm l) /\ atom_var a = Some v) <-> exists a, In a l /\ atom_var a = Some v.
Proof.
  induction l as [|a r IH]; [reflexivity|]. destruct (norm_cases a r) as [(n & s & e & r' & -> & E & ->)|[-> N]].
  - rewrite E in IH. split.
    + intros (b & [<-|Hb] & Eb); [discriminate Eb|]. destruct (proj1 IH) as (c & Hc & Ec); [exists b; split; [right; exact Hb|exact Eb]|].
      exists c. split; [right; exact Hc|exact Ec].
    + intros (b & [<-|Hb] & Eb); [discriminate Eb|]. destruct (proj2 IH) as (c & Hc & Ec); [eauto|].
      destruct Hc as [<-|Hc]; [discriminate Ec|]. exists c. split; [right; exact Hc|exact Ec].
  - split; intros (b & [<-|Hb] & Eb); try (exists a; split; [left; reflexivity|exact Eb]).
    + destruct (proj1 IH) as (c & Hc & Ec); [eauto|]. exists c. split; [right; exact Hc|exact Ec].
    + destruct (proj2 IH) as (c & Hc & Ec); [eauto|]. exists c. split; [right; exact Hc|exact Ec].
Qed.
Lemma product_traces series t p k : wf_term t -> gen_product series (term_syms t) = Some (p, k) ->
  omap ev_dep (dependency (t_atoms t)) = Some (rp_dep p) /\
  forall tr, (exists f, In f (rp_factors p) /\ rf_var f = VTrace tr) <-> mentions t (trace_var tr).
Proof.
  intros Hw E. unfold gen_product in E. rewrite (gen_term series t Hw) in E.
  destruct (okp series (periods (t_atoms t))); [|discriminate]. cbn [obind] in E.
  set (g := closed (start series (t_sign t)) (norm (t_atoms t))) in *.
  destruct (normalize (norm_fuel (g_mant g)) (g_mant g) (g_exp g)) as [[m e]|]; [|discriminate]. cbn [obind] in E.
  assert (Ed : g_dep g = omap ev_dep (dependency (t_atoms t)))
    by (unfold g; rewrite closed_dep, norm_dependency; reflexivity).
  destruct (g_dep g) as [d|] eqn:Egd; [|discriminate].
  destruct ((m <? -8) || (8 <=? m)); [discriminate|]. destruct ((e <? -7) || (9 <=? e)); [discriminate|].
  match goal with H : (if ?b then None else Some _) = Some _ |- _ => destruct b; [discriminate|] end.
  injection E as <- <-. cbn [rp_dep rp_factors]. split; [congruence|].
  intros tr. unfold g. rewrite closed_trace by (apply norm_wf, Hw). cbn [start g_factors]. split.
  - intros [(f & [] & _)|H]. unfold mentions. now apply norm_mentions.
  - intros H. right. now apply norm_mentions.
Qed.
Lemma products_traces : forall r series ps k, Forall wf_term r -> gen_products series (map term_syms r) = Some (ps, k) ->
  forall d tr, existsb (fun p => dep_eqb (rp_dep p) d &&
     existsb (fun f => match rf_var f with VTrace t => trace_eqb t tr | _ => false end) (rp_factors p)) ps = true <->
  exists t e, In t r /\ dependency (t_atoms t) = Some e /\ ev_dep e = d /\ mentions t (trace_var tr).
Proof.
  induction r as [|t r IH]; intros series ps k Hw E d tr; cbn [map gen_products] in E.
  - injection E as <- <-. cbn. split; [discriminate|]. intros (t & e & [] & _).
  - inversion Hw; subst. destruct (gen_product series (term_syms t)) as [[p k1]|] eqn:E1; [|discriminate].
    cbn [obind fst snd] in E. destruct (gen_products k1 (map term_syms r)) as [[ps' k2]|] eqn:E2; [|discriminate].
    cbn [omap fst snd] in E. injection E as <- <-. cbn [existsb]. rewrite orb_true_iff, (IH k1 ps' k2) by assumption.
    destruct (product_traces series t p k1 ltac:(assumption) E1) as [P1 P2]. rewrite andb_true_iff, dep_eqb_spec.
    assert (X : existsb (fun f => match rf_var f with VTrace t => trace_eqb t tr | _ => false end) (rp_factors p) = true
                <-> mentions t (trace_var tr)).
    { rewrite <- P2. rewrite existsb_exists. split; intros (f & Hf & Ef); exists f; (split; [exact Hf|]).
      - destruct (rf_var f); try discriminate Ef. apply trace_eqb_spec in Ef. now subst.
      - rewrite Ef. now apply trace_eqb_spec. }
    rewrite X. split.
    + intros [[D M]|(u & e & Hu & Hx)].
      * destruct (dependency (t_atoms t)) as [e|] eqn:Ed; [|discriminate P1]. cbn [omap] in P1. injection P1 as P1.
        exists t, e. split; [left; reflexivity|]. split; [exact Ed|]. split; [congruence|exact M].
      * exists u, e. split; [right; exact Hu|exact Hx].
    + intros (u & e & [<-|Hu] & D & Ed & M).
      * left. rewrite D in P1. cbn [omap] in P1. injection P1 as P1. split; [congruence|exact M].
      * right. exists u, e. auto.
Qed.
(** C65: the traces a LearningRule keeps for a dependency are exactly those its rules mention in a product with
    that dependency *)
Theorem active_traces_exact : forall (ss : list string) (rs : list rule) (pss : list (list rproduct)),
  Forall wf_rule rs -> Forall2 writes ss rs ->
  Forall2 (fun s ps => exists k, compile s = Some (ps, k)) ss pss ->
  forall d tr, active pss d tr = true <->
    exists r t e, In r rs /\ In t r /\ dependency (t_atoms t) = Some e /\ ev_dep e = d /\ mentions t (trace_var tr).
Proof.
  intros ss rs pss Hw Hwr. revert pss. induction Hwr as [|s r ss rs H1 Hwr IH]; intros pss Hc d tr.
  - inversion Hc; subst. cbn. split; [discriminate|]. intros (r & t & e & [] & _).
  - inversion Hc as [|? ps ? pss' (k & Ek) Hc']; subst. inversion Hw as [|? ? Hr Hw']; subst.
    unfold active. cbn [existsb]. rewrite orb_true_iff.
    fold (active pss' d tr). rewrite (IH Hw' pss' Hc' d tr).
    rewrite (compile_rule s r Hr H1) in Ek. rewrite (products_traces r None ps k (proj1 (proj2 Hr)) Ek d tr). split.
    + intros [(t & e & Ht & H)|(r' & t & e & Hr' & H)].
      * exists r, t, e. split; [left; reflexivity|]. auto.
      * exists r', t, e. split; [right; exact Hr'|exact H].
    + intros (r' & t & e & [<-|Hr'] & H).
      * left. exists t, e. exact H.
      * right. exists r', t, e. auto.
Qed.
