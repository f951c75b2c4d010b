(** Proofs about the learning-rule compiler. *)
From Coq Require Import ZArith QArith Qpower Qabs List Bool Ascii String Lia Lqa.
From Verif Require Import Learning_Model Rule_Model Rule_Spec.
Import ListNotations.
Open Scope Z_scope.

(** ** Characters *)
Definition digit_chars : list ascii := list_ascii_of_string "0123456789".
Lemma digit_is_digit c : In c digit_chars -> is_digit c = true.
Proof. cbn. intros H. repeat (destruct H as [<-|H]; [reflexivity|]). destruct H. Qed.
Definition not_digit_first (s : chars) : Prop := match s with c :: _ => is_digit c = false | [] => True end.
Lemma digits_app n rest : Forall (fun c => In c digit_chars) n -> not_digit_first rest ->
  digits (n ++ rest) = (n, rest).
Proof.
  intros Hn Hr. induction n as [|c n IH]; cbn [List.app digits].
  - destruct rest as [|c r]; [reflexivity|]. cbn [digits]. cbn in Hr. now rewrite Hr.
  - inversion Hn as [|? ? Hc Hn']; subst. rewrite (digit_is_digit c Hc), (IH Hn'). reflexivity.
Qed.

Lemma fold_horner n : forall v,
  fold_left (fun v x => 10 * v + digit_val x) n v = v * 10 ^ Z.of_nat (List.length n) + numeral_value n.
Proof.
  induction n as [|c n IH]; intros v.
  - cbn. lia.
  - cbn [fold_left numeral_value List.length]. rewrite IH.
    rewrite Nat2Z.inj_succ, Z.pow_succ_r by lia.
    unfold digit_val, digit. change (Z.of_nat (nat_of_ascii "0"%char)) with 48.
    ring.
Qed.
Lemma eval_numeral n : is_numeral n -> eval_digits n = Some (numeral_value n).
Proof.
  intros (Hne & Hd & Hz). destruct n as [|c r]; [congruence|]. unfold eval_digits.
  assert (E : is_char "0" c && existsb (fun x => negb (is_char "0" x)) r = false).
  { apply andb_false_iff. destruct Hz as [Hz|Hz].
    - right. inversion Hz as [|? ? Hc Hr]; subst. clear -Hr. induction Hr as [|x r Hx Hr IH]; [reflexivity|].
      subst x. cbn [existsb]. rewrite IH. reflexivity.
    - left. cbn [hd] in Hz. unfold is_char. apply Ascii.eqb_neq. congruence. }
  rewrite E. f_equal. rewrite fold_horner. lia.
Qed.

(** ** Symbols of the grammar *)
Definition sign_toks (s : sign) : list (chars * sym) :=
  match s with NoSign => [] | Plus => [(["+"%char], SAdd)] | Minus => [(["-"%char], SSub)] end.
Definition event_sym (e : event) : sym :=
  match e with Pre => SX0 | Post => SY0 | Periodic k => SUk (Z.of_nat k) end.
Definition var_state (v : var) : state_var :=
  match v with X1 => VTrace TX1 | X2 => VTrace TX2 | Y1 => VTrace TY1 | Y2 => VTrace TY2 | Y3 => VTrace TY3
             | W => VSyn SWeights | D => VSyn STag2 | T => VSyn STag1 end.
Definition lit_sym (l : lit) : sym :=
  SLit {| l_mant := lit_mant l; l_base := match l with Plain _ => 1 | _ => 2 end; l_exp := lit_exp l |}.
Definition base_state (b : base) : state_var :=
  match b with BVar v => var_state v | BPre => VX0 | BPost => VY0 end.
Definition base_sym (b : base) : sym :=
  match b with BVar v => SVar (var_state v) | BPre => SX0 | BPost => SY0 end.
Definition inside_toks (i : inside) : list (chars * sym) :=
  match i with
  | InVar s v => sign_toks s ++ [(show_var v, SVar (var_state v))]
  | InLit s l => sign_toks s ++ [(show_lit l, lit_sym l)]
  | VarLit s b s' l => sign_toks s ++ (show_base b, base_sym b) :: sign_toks s' ++ [(show_lit l, lit_sym l)]
  | LitVar s l s' b => sign_toks s ++ (show_lit l, lit_sym l) :: sign_toks s' ++ [(show_base b, base_sym b)]
  end.
Definition inside_syms (i : inside) : list sym := map snd (inside_toks i).
Definition atom_sym (a : atom) : sym :=
  match a with
  | AEvent e => event_sym e
  | AVar v => SVar (var_state v)
  | ALit l => lit_sym l
  | ABracket i => SBracket (inside_syms i)
  | ASgn i => SSgn (inside_syms i)
  end.

Definition texts (ts : list (chars * sym)) : chars := List.concat (map fst ts).
Fixpoint good (ts : list (chars * sym)) : Prop :=
  match ts with
  | [] => True
  | (w, y) :: r => w <> [] /\
      (forall k, (List.length w <= k)%nat -> find_next (parse_fuel k) (w ++ texts r) = Found y (texts r)) /\ good r
  end.
Lemma texts_app a b : texts (a ++ b) = texts a ++ texts b.
Proof. unfold texts. now rewrite map_app, concat_app. Qed.
Lemma parse_tokens : forall ts n, ts <> [] -> good ts -> (List.length (texts ts) < n)%nat ->
  parse_fuel n (texts ts) = Some (map snd ts).
Proof.
  induction ts as [|[w y] r IH]; intros n Hne Hg Hn; [congruence|].
  destruct Hg as (Hw & Hf & Hg). destruct n as [|k]; [lia|].
  change (texts ((w, y) :: r)) with (w ++ texts r) in *.
  cbn [parse_fuel]. rewrite app_length in Hn.
  assert (0 < List.length w)%nat by (destruct w; [congruence|cbn; lia]).
  rewrite Hf by lia. destruct r as [|[w2 y2] r2].
  - reflexivity.
  - assert (texts ((w2, y2) :: r2) <> []).
    { destruct Hg as (Hw2 & _). change (texts ((w2, y2) :: r2)) with (w2 ++ texts r2).
      destruct w2; [congruence|discriminate]. }
    destruct (texts ((w2, y2) :: r2)) as [|c t] eqn:E; [congruence|].
    rewrite <- E in *. rewrite IH by (try discriminate; try assumption; rewrite ?E in *; lia). reflexivity.
Qed.

(** ** One symbol *)
Lemma find_event e rec rest : (match e with Periodic k => (k < 10)%nat | _ => True end) ->
  find_next rec (show_event e ++ rest) = Found (event_sym e) rest.
Proof.
  destruct e as [| |k]; intros H; [reflexivity|reflexivity|].
  do 10 (destruct k as [|k]; [reflexivity|]). lia.
Qed.
Lemma find_var v rec rest : find_next rec (show_var v ++ rest) = Found (SVar (var_state v)) rest.
Proof. destruct v; reflexivity. Qed.
Lemma find_base b rec rest : find_next rec (show_base b ++ rest) = Found (base_sym b) rest.
Proof. destruct b; [apply find_var|reflexivity|reflexivity]. Qed.

Definition lit_follow (plain : bool) (rest : chars) : Prop :=
  not_digit_first rest /\
  (plain = true -> match rest with
                   | c :: r => c <> "^"%char /\ (c = "*"%char -> pow_tail r = None)
                   | [] => True
                   end).
Lemma find_literal_first c s rec : In c digit_chars -> find_next rec (c :: s) = find_literal (c :: s).
Proof.
  cbn [digit_chars list_ascii_of_string In]. intros H.
  repeat (destruct H as [<-|H];
          [unfold find_next, finders; cbn [first_found word after is_char Ascii.eqb Bool.eqb find_uk find_expr];
           destruct (find_literal _); reflexivity|]). destruct H.
Qed.
Lemma pow_tail_show s n rest : is_numeral n -> not_digit_first rest ->
  pow_tail (list_ascii_of_string "2^" ++ show_sign s ++ n ++ rest) = Some (sign_value s, n, rest).
Proof.
  intros (Hne & Hd & _) Hr. unfold pow_tail. cbn [list_ascii_of_string List.app after is_char Ascii.eqb Bool.eqb].
  assert (E : opt_sign (show_sign s ++ n ++ rest) = (sign_value s, n ++ rest)).
  { destruct s; [|reflexivity|reflexivity]. cbn [show_sign List.app sign_value].
    destruct n as [|c n]; [congruence|]. inversion Hd as [|? ? Hc Hd']; subst. clear -Hc.
    cbn in Hc. repeat (destruct Hc as [<-|Hc]; [reflexivity|]). destruct Hc. }
  rewrite E, (digits_app n rest Hd Hr). destruct n; [congruence|reflexivity].
Qed.
Lemma pow_tail_plain n rest : is_numeral n ->
  (match rest with c :: r => c <> "^"%char | [] => True end) -> pow_tail (n ++ rest) = None.
Proof.
  intros (Hne & Hd & _) Hr. destruct n as [|c n]; [congruence|]. inversion Hd as [|? ? Hc Hd']; subst.
  unfold pow_tail. destruct (Ascii.ascii_dec c "2") as [->|N].
  - destruct n as [|c2 n].
    + destruct rest as [|c2 r]; [reflexivity|].
      cbn [List.app after]. change (is_char "2" "2") with true. cbv iota.
      unfold is_char. rewrite (proj2 (Ascii.eqb_neq "^" c2)) by congruence. reflexivity.
    + inversion Hd' as [|? ? Hc2 _]; subst. clear -Hc2. cbn in Hc2.
      repeat (destruct Hc2 as [<-|Hc2]; [reflexivity|]). destruct Hc2.
  - cbn [List.app after]. unfold is_char. rewrite (proj2 (Ascii.eqb_neq "2" c)) by congruence. reflexivity.
Qed.
Lemma find_lit l rec rest : wf_lit l -> lit_follow (match l with Plain _ => true | _ => false end) rest ->
  find_next rec (show_lit l ++ rest) = Found (lit_sym l) rest.
Proof.
  intros Hl (Hnd & Hp). destruct l as [n|s n|m s n]; cbn [wf_lit] in Hl.
  - destruct Hl as (Hne & Hd & Hz). pose proof Hd as Hd0.
    destruct n as [|c n]; [congruence|]. cbn [show_lit List.app].
    rewrite find_literal_first by (now inversion Hd). unfold find_literal.
    change (c :: n ++ rest) with ((c :: n) ++ rest). rewrite (digits_app _ _ Hd Hnd).
    cbv iota. specialize (Hp eq_refl).
    assert (Hnum : is_numeral (c :: n)) by (split; [discriminate|split; assumption]).
    rewrite (pow_tail_plain (c :: n) rest Hnum) by (destruct rest; [exact I|tauto]).
    rewrite (eval_numeral _ Hnum).
    assert (E : match after ["*"]%char rest with Some r' => pow_tail r' | None => None end = None).
    { destruct rest as [|c2 r]; [reflexivity|]. cbn [after]. unfold is_char.
      destruct (Ascii.eqb_spec "*" c2) as [E|E]; [|reflexivity]. apply Hp. now subst. }
    rewrite E. reflexivity.
  - change (show_lit (Pow s n) ++ rest) with ("2"%char :: "^"%char :: (show_sign s ++ n) ++ rest).
    rewrite find_literal_first by (cbn; tauto). rewrite <- app_assoc. unfold find_literal.
    change (digits ("2"%char :: "^"%char :: show_sign s ++ n ++ rest)) with (["2"%char], "^"%char :: show_sign s ++ n ++ rest).
    cbv iota. change (after ["*"%char] ("^"%char :: show_sign s ++ n ++ rest)) with (@None chars). cbv iota.
    change ("2"%char :: "^"%char :: show_sign s ++ n ++ rest) with (list_ascii_of_string "2^" ++ show_sign s ++ n ++ rest).
    rewrite (pow_tail_show s n rest Hl Hnd), (eval_numeral _ Hl). reflexivity.
  - destruct Hl as [Hm Hn]. pose proof Hm as (Hne & Hd & Hz). destruct m as [|c m]; [congruence|].
    cbn [show_lit List.app]. rewrite find_literal_first by (now inversion Hd). unfold find_literal.
    assert (E0 : c :: (m ++ list_ascii_of_string "*2^" ++ show_sign s ++ n) ++ rest
      = (c :: m) ++ "*"%char :: list_ascii_of_string "2^" ++ show_sign s ++ n ++ rest)
      by (cbn [List.app list_ascii_of_string]; rewrite <- !app_assoc; cbn [List.app]; now rewrite <- !app_assoc).
    cbn [List.app list_ascii_of_string] in E0 |- *. rewrite E0. clear E0.
    change (c :: m ++ "*"%char :: "2"%char :: "^"%char :: show_sign s ++ n ++ rest)
      with ((c :: m) ++ "*"%char :: list_ascii_of_string "2^" ++ show_sign s ++ n ++ rest).
    rewrite (digits_app (c :: m) _ Hd) by reflexivity.
    change (after ["*"%char] ("*"%char :: list_ascii_of_string "2^" ++ show_sign s ++ n ++ rest))
      with (Some (list_ascii_of_string "2^" ++ show_sign s ++ n ++ rest)).
    cbv iota. rewrite (pow_tail_show s n rest Hn Hnd), (eval_numeral _ Hm), (eval_numeral _ Hn). reflexivity.
Qed.

(** ** Brackets *)
Definition no_bracket (s : chars) : Prop := Forall (fun c => c <> "("%char /\ c <> ")"%char) s.
Lemma split_close_ok s rest : no_bracket s -> split_close 0 (s ++ ")"%char :: rest) = Some (s, rest).
Proof.
  induction 1 as [|c s [H1 H2] _ IH]; [reflexivity|]. cbn [List.app split_close]. unfold is_char in *.
  rewrite (proj2 (Ascii.eqb_neq ")" c)) by congruence. rewrite (proj2 (Ascii.eqb_neq "(" c)) by congruence.
  rewrite IH. reflexivity.
Qed.
Lemma nb_app a b : no_bracket a -> no_bracket b -> no_bracket (a ++ b).
Proof. unfold no_bracket. intros. apply Forall_app. tauto. Qed.
Lemma nb_numeral n : is_numeral n -> no_bracket n.
Proof.
  intros (_ & Hd & _). eapply Forall_impl; [|exact Hd]. intros c Hc. cbn in Hc.
  repeat (destruct Hc as [<-|Hc]; [split; discriminate|]). destruct Hc.
Qed.
Lemma nb_sign s : no_bracket (show_sign s).
Proof. destruct s; repeat constructor; discriminate. Qed.
Lemma nb_lit l : wf_lit l -> no_bracket (show_lit l).
Proof.
  assert (H2 : no_bracket (list_ascii_of_string "2^")) by (repeat constructor; discriminate).
  assert (H3 : no_bracket (list_ascii_of_string "*2^")) by (repeat constructor; discriminate).
  destruct l; cbn [wf_lit show_lit]; intros H; repeat apply nb_app; auto using nb_numeral, nb_sign;
    apply nb_numeral; tauto.
Qed.
Lemma nb_var v : no_bracket (show_var v).
Proof. destruct v; repeat constructor; discriminate. Qed.
Lemma nb_base b : no_bracket (show_base b).
Proof. destruct b; [apply nb_var| |]; repeat constructor; discriminate. Qed.
Definition inside_lit_ok (i : inside) : Prop :=
  match i with InVar _ _ => True | InLit _ l => wf_lit l
             | VarLit _ _ s l | LitVar _ l s _ => wf_lit l /\ s <> NoSign end.
Lemma wf_bracket_ok i : wf_bracket i -> inside_lit_ok i.
Proof. destruct i; cbn; tauto. Qed.
Lemma wf_sgn_ok i : wf_sgn i -> inside_lit_ok i.
Proof. destruct i; cbn; try tauto. intros (-> & _ & H). split; [exact H|discriminate]. Qed.
Lemma nb_inside i : inside_lit_ok i -> no_bracket (show_inside i).
Proof.
  destruct i; cbn [inside_lit_ok show_inside]; intros H; repeat apply nb_app;
    auto using nb_sign, nb_var, nb_lit, nb_base; try (apply nb_lit; tauto).
Qed.

Lemma texts_sign s : texts (sign_toks s) = show_sign s.
Proof. destruct s; reflexivity. Qed.
Lemma texts_inside i : texts (inside_toks i) = show_inside i.
Proof.
  destruct i; cbn [inside_toks show_inside]; rewrite ?texts_app, ?texts_sign.
  - unfold texts; cbn; now rewrite app_nil_r.
  - unfold texts; cbn; now rewrite app_nil_r.
  - change (texts ((show_base b, base_sym b) :: sign_toks s' ++ [(show_lit l, lit_sym l)]))
      with (show_base b ++ texts (sign_toks s' ++ [(show_lit l, lit_sym l)])).
    rewrite texts_app, texts_sign. unfold texts; cbn; now rewrite app_nil_r.
  - change (texts ((show_lit l, lit_sym l) :: sign_toks s' ++ [(show_base b, base_sym b)]))
      with (show_lit l ++ texts (sign_toks s' ++ [(show_base b, base_sym b)])).
    rewrite texts_app, texts_sign. unfold texts; cbn; now rewrite app_nil_r.
Qed.
Lemma good_sign s r : good r -> good (sign_toks s ++ r).
Proof. destruct s; cbn [sign_toks List.app]; [auto| |]; intros H; repeat split; try discriminate; assumption. Qed.
Lemma show_lit_ne l : wf_lit l -> show_lit l <> [].
Proof. destruct l; cbn; [intros (H & _); exact H|discriminate|intros ((H & _) & _); destruct m; [congruence|discriminate]]. Qed.
Lemma show_base_ne b : show_base b <> [].
Proof. destruct b as [v| |]; [destruct v| |]; discriminate. Qed.
Lemma good_inside i : inside_lit_ok i -> good (inside_toks i).
Proof.
  destruct i as [s v|s l|s b s' l|s l s' b]; cbn [inside_lit_ok inside_toks]; intros H; apply good_sign; cbn [good].
  - split; [destruct v; discriminate|]. split; [|exact I]. intros k _. apply find_var.
  - split; [now apply show_lit_ne|]. split; [|exact I]. intros k _. apply find_lit; [exact H|]. split; [exact I|].
    intros _. exact I.
  - split; [apply show_base_ne|]. split; [intros k _; apply find_base|].
    apply good_sign. cbn [good]. split; [now apply show_lit_ne|]. split; [|exact I].
    intros k _. apply find_lit; [tauto|]. split; [exact I|intros _; exact I].
  - split; [now apply show_lit_ne|]. split.
    + intros k _. apply find_lit; [tauto|]. rewrite texts_app, texts_sign. destruct H as [_ H].
      destruct s'; [congruence| |]; (split; [reflexivity|intros _; split; discriminate]).
    + apply good_sign. cbn [good]. split; [apply show_base_ne|]. split; [intros k _; apply find_base|exact I].
Qed.
Lemma inside_toks_ne i : inside_toks i <> [].
Proof. destruct i; cbn; destruct s; discriminate. Qed.
Lemma parse_inside i k : inside_lit_ok i -> (List.length (show_inside i) < k)%nat ->
  parse_fuel k (show_inside i) = Some (inside_syms i).
Proof.
  intros H Hk. rewrite <- (texts_inside i) in *. apply parse_tokens; [apply inside_toks_ne|now apply good_inside|exact Hk].
Qed.

(** ** Atoms *)
Definition atom_plain (a : atom) : bool := match a with ALit (Plain _) => true | _ => false end.
Lemma show_atom_ne a : wf_atom a -> show_atom a <> [].
Proof. destruct a as [e|v|l|i|i]; cbn; intros H; [destruct e|destruct v| | |]; try discriminate. now apply show_lit_ne. Qed.
Lemma find_atom a k rest : wf_atom a -> lit_follow (atom_plain a) rest -> (List.length (show_atom a) <= k)%nat ->
  find_next (parse_fuel k) (show_atom a ++ rest) = Found (atom_sym a) rest.
Proof.
  intros Hw Hf Hk. destruct a as [e|v|l|i|i].
  - apply find_event. cbn in Hw. destruct e; auto.
  - apply find_var.
  - apply find_lit; [exact Hw|]. destruct l; exact Hf.
  - assert (Hok := wf_bracket_ok i Hw). cbn [show_atom] in *.
    replace (("("%char :: show_inside i ++ [")"%char]) ++ rest)
      with ("("%char :: show_inside i ++ ")"%char :: rest) by (cbn [List.app]; now rewrite <- app_assoc).
    unfold find_next, finders.
    cbn [first_found word after is_char Ascii.eqb Bool.eqb find_uk find_expr].
    cbn [after is_char Ascii.eqb Bool.eqb].
    rewrite split_close_ok by now apply nb_inside.
    cbn [List.length] in Hk. rewrite app_length in Hk. cbn [List.length] in Hk.
    rewrite parse_inside by (try assumption; lia). reflexivity.
  - assert (Hok := wf_sgn_ok i Hw). cbn [show_atom] in *.
    replace ((list_ascii_of_string "sgn(" ++ show_inside i ++ [")"%char]) ++ rest)
      with ("s"%char :: "g"%char :: "n"%char :: "("%char :: show_inside i ++ ")"%char :: rest)
      by (cbn [list_ascii_of_string List.app]; now rewrite <- app_assoc).
    unfold find_next, finders.
    cbn [first_found word after is_char Ascii.eqb Bool.eqb find_uk find_expr].
    cbn [after is_char Ascii.eqb Bool.eqb].
    rewrite split_close_ok by now apply nb_inside.
    cbn [list_ascii_of_string List.length List.app] in Hk. rewrite app_length in Hk. cbn [List.length] in Hk.
    rewrite parse_inside by (try assumption; lia). reflexivity.
Qed.

(** adjacent literals: [3*2^4] is one symbol *)
Fixpoint norm (l : list atom) : list atom :=
  match l with
  | [] => []
  | a :: r =>
      match a, norm r with
      | ALit (Plain n), ALit (Pow s e) :: r' => ALit (Scaled n s e) :: r'
      | _, r' => a :: r'
      end
  end.
Fixpoint normal (l : list atom) : Prop :=
  match l with
  | ALit (Plain n) :: ((ALit (Pow _ _) :: _)) => False
  | _ :: r => normal r
  | [] => True
  end.
Lemma norm_cases a r :
  (exists n s e r', a = ALit (Plain n) /\ norm r = ALit (Pow s e) :: r' /\ norm (a :: r) = ALit (Scaled n s e) :: r')
  \/ (norm (a :: r) = a :: norm r /\
      ~ (exists n s e r', a = ALit (Plain n) /\ norm r = ALit (Pow s e) :: r')).
Proof.
  cbn [norm]. destruct a as [e|v|l|i|i]; try (right; split; [reflexivity|intros (?&?&?&?&?&?); discriminate]).
  destruct l as [n|s n|m s n]; try (right; split; [reflexivity|intros (?&?&?&?&?&?); discriminate]).
  destruct (norm r) as [|b r'] eqn:E; [right; split; [reflexivity|intros (?&?&?&?&?&?); discriminate]|].
  destruct b as [e|v|l|i|i]; try (right; split; [reflexivity|intros (?&?&?&?&?&?); discriminate]).
  destruct l as [n'|s n'|m s n']; try (right; split; [reflexivity|intros (?&?&?&?&?&?); discriminate]).
  left. exists n, s, n', r'. auto.
Qed.
Lemma norm_normal l : normal (norm l).
Proof.
  induction l as [|a r IH]; [exact I|]. destruct (norm_cases a r) as [(n & s & e & r' & -> & E & ->)|[-> N]].
  - rewrite E in IH. cbn [normal] in IH |- *. exact IH.
  - cbn [normal]. destruct a as [e|v|l|i|i]; try exact IH. destruct l as [n|s n|m s n]; try exact IH.
    destruct (norm r) as [|b r'] eqn:E; [exact IH|]. destruct b as [e|v|l|i|i]; try exact IH.
    destruct l; try exact IH. apply N. eauto 6.
Qed.
Lemma norm_wf l : Forall wf_atom l -> Forall wf_atom (norm l).
Proof.
  induction 1 as [|a r Ha Hr IH]; [constructor|]. destruct (norm_cases a r) as [(n & s & e & r' & -> & E & ->)|[-> N]].
  - rewrite E in IH. inversion IH; subst. constructor; [cbn in *; tauto|assumption].
  - now constructor.
Qed.
Lemma norm_ne l : l <> [] -> norm l <> [].
Proof.
  destruct l as [|a r]; [congruence|]. intros _. destruct (norm_cases a r) as [(n & s & e & r' & -> & E & ->)|[-> N]]; discriminate.
Qed.
Lemma show_atoms_cons a r : r <> [] -> show_atoms (a :: r) = show_atom a ++ "*"%char :: show_atoms r.
Proof. destruct r; [congruence|reflexivity]. Qed.
Lemma norm_show l : show_atoms (norm l) = show_atoms l.
Proof.
  induction l as [|a r IH]; [reflexivity|]. destruct (norm_cases a r) as [(n & s & e & r' & -> & E & ->)|[-> N]].
  - assert (r <> []) by (intros ->; discriminate). rewrite show_atoms_cons with (r := r) by assumption.
    rewrite <- IH, E. destruct r' as [|b r''].
    + cbn [show_atoms show_atom show_lit List.app list_ascii_of_string]. reflexivity.
    + rewrite (show_atoms_cons (ALit (Scaled n s e))), (show_atoms_cons (ALit (Pow s e))) by discriminate.
      cbn [show_atom show_lit List.app list_ascii_of_string].
      rewrite <- !app_assoc. cbn [List.app]. rewrite <- !app_assoc. reflexivity.
  - destruct r as [|b r']; [reflexivity|]. rewrite !show_atoms_cons by (try apply norm_ne; discriminate). now rewrite IH.
Qed.

(** the symbols of a product *)
Fixpoint atom_toks (l : list atom) : list (chars * sym) :=
  match l with
  | [] => []
  | [a] => [(show_atom a, atom_sym a)]
  | a :: r => (show_atom a, atom_sym a) :: (["*"%char], SMul) :: atom_toks r
  end.
Lemma atom_toks_cons a r : r <> [] -> atom_toks (a :: r) = (show_atom a, atom_sym a) :: (["*"%char], SMul) :: atom_toks r.
Proof. destruct r; [congruence|reflexivity]. Qed.
Lemma texts_atoms l : texts (atom_toks l) = show_atoms l.
Proof.
  induction l as [|a r IH]; [reflexivity|]. destruct r as [|b r'].
  - unfold texts. cbn. now rewrite app_nil_r.
  - rewrite atom_toks_cons, show_atoms_cons by discriminate. rewrite <- IH. reflexivity.
Qed.
Definition sep_start (s : chars) : Prop := match s with [] => True | c :: _ => c = "+"%char \/ c = "-"%char end.
Lemma sep_follow b s : sep_start s -> lit_follow b s.
Proof.
  destruct s as [|c r]; [intros _; split; [exact I|intros _; exact I]|].
  intros [->| ->]; (split; [reflexivity|intros _; split; discriminate]).
Qed.
Lemma pow_tail_atom a rest : wf_atom a -> (forall s n, a <> ALit (Pow s n)) ->
  (match rest with c :: r => c <> "^"%char | [] => True end) -> pow_tail (show_atom a ++ rest) = None.
Proof.
  intros Hw N Hr. destruct a as [e|v|l|i|i].
  - destruct e; reflexivity.
  - destruct v; reflexivity.
  - destruct l as [n|s n|m s n]; [|now specialize (N s n)|].
    + now apply pow_tail_plain.
    + cbn [show_atom show_lit]. rewrite <- app_assoc. cbn [list_ascii_of_string List.app].
      apply pow_tail_plain; [apply Hw|discriminate].
  - reflexivity.
  - reflexivity.
Qed.
Lemma show_atoms_head_tail a r tl : wf_atom a -> Forall wf_atom r -> (forall s n, a <> ALit (Pow s n)) ->
  sep_start tl -> pow_tail (show_atoms (a :: r) ++ tl) = None.
Proof.
  intros Ha Hr N Ht. destruct r as [|b r'].
  - cbn [show_atoms]. apply pow_tail_atom; auto. destruct tl as [|c t]; [exact I|]. destruct Ht as [->| ->]; discriminate.
  - rewrite show_atoms_cons by discriminate. rewrite <- app_assoc. apply pow_tail_atom; auto. discriminate.
Qed.
Lemma good_atoms : forall l tl, l <> [] -> Forall wf_atom l -> normal l -> good tl -> sep_start (texts tl) ->
  good (atom_toks l ++ tl).
Proof.
  induction l as [|a r IH]; intros tl Hne Hw Hn Ht Hs; [congruence|].
  inversion Hw as [|? ? Ha Hr]; subst. destruct r as [|b r'].
  - cbn [atom_toks List.app good]. split; [now apply show_atom_ne|]. split; [|exact Ht].
    intros k Hk. apply find_atom; auto using sep_follow.
  - rewrite atom_toks_cons by discriminate. cbn [List.app good]. split; [now apply show_atom_ne|]. split.
    + intros k Hk. apply find_atom; auto.
      change (texts ((["*"%char], SMul) :: atom_toks (b :: r') ++ tl)) with ("*"%char :: texts (atom_toks (b :: r') ++ tl)).
      split; [reflexivity|]. intros Hp. split; [discriminate|]. intros _.
      rewrite texts_app, texts_atoms. inversion Hr; subst. apply show_atoms_head_tail; auto.
      intros s n ->. destruct a as [e|v|l|i|i]; try discriminate Hp. destruct l; try discriminate Hp. exact Hn.
    + split; [discriminate|]. split; [reflexivity|]. apply IH; auto; try discriminate.
      cbn [normal] in Hn |- *. destruct a as [e|v|l|i|i]; try exact Hn. destruct l as [n|s n|m s n]; try exact Hn.
      destruct b as [e|v|l|i|i]; try exact Hn. destruct l; try exact Hn. destruct Hn.
Qed.

(** ** The whole rule *)
Definition term_toks (t : term) : list (chars * sym) := sign_toks (t_sign t) ++ atom_toks (norm (t_atoms t)).
Definition rule_toks (r : rule) : list (chars * sym) := List.concat (map term_toks r).
Lemma texts_term t : texts (term_toks t) = show_term t.
Proof. unfold term_toks, show_term. now rewrite texts_app, texts_sign, texts_atoms, norm_show. Qed.
Lemma texts_rule r : texts (rule_toks r) = show_rule r.
Proof.
  unfold rule_toks, show_rule. induction r as [|t r IH]; [reflexivity|]. cbn [map List.concat].
  now rewrite texts_app, texts_term, IH.
Qed.
Lemma sep_rule r : Forall (fun t => t_sign t <> NoSign) r -> sep_start (texts (rule_toks r)).
Proof.
  intros H. rewrite texts_rule. destruct H as [|t r Ht _]; [exact I|]. unfold show_rule, show_term. cbn [map List.concat].
  destruct (t_sign t); [congruence|left; reflexivity|right; reflexivity].
Qed.
Lemma good_terms r : Forall wf_term r -> Forall (fun t => t_sign t <> NoSign) (tl r) -> good (rule_toks r).
Proof.
  intros Hw. induction Hw as [|t r [Hne Ht] Hw IH]; intros Hs; [exact I|].
  unfold rule_toks in *. cbn [map List.concat]. unfold term_toks at 1. rewrite <- app_assoc. apply good_sign.
  cbn [tl] in Hs. apply good_atoms; auto using norm_ne, norm_wf, norm_normal, sep_rule.
  - apply IH. destruct r; [constructor|now inversion Hs].
  - now apply sep_rule.
Qed.
Lemma rule_toks_ne r : wf_rule r -> rule_toks r <> [].
Proof.
  intros (Hne & Hw & _). destruct r as [|t r]; [congruence|]. inversion Hw as [|? ? [Ht _] _]; subst.
  unfold rule_toks. cbn [map List.concat]. unfold term_toks. pose proof (norm_ne _ Ht) as N.
  destruct (t_sign t); cbn [sign_toks List.app]; try discriminate. destruct (norm (t_atoms t)) as [|a l]; [congruence|].
  destruct l; discriminate.
Qed.
Theorem parse_show r : wf_rule r -> parse (show_rule r) = Some (map snd (rule_toks r)).
Proof.
  intros H. rewrite <- texts_rule. unfold parse. apply parse_tokens; [now apply rule_toks_ne| |lia].
  destruct H as (_ & Hw & Hs). now apply good_terms.
Qed.

(** ** Splitting into products *)
Definition sign_syms (s : sign) : list sym := map snd (sign_toks s).
Definition term_syms (t : term) : list sym := sign_syms (t_sign t) ++ map atom_sym (norm (t_atoms t)).
Lemma atom_not_op a : is_operator (atom_sym a) = false.
Proof. destruct a as [e|v|l|i|i]; [destruct e| | | |]; reflexivity. Qed.
Lemma separate_factor y l cur : is_operator y = false -> separate (y :: l) cur = separate l (cur ++ [y]).
Proof. destruct y; cbn; (discriminate || reflexivity). Qed.
Lemma separate_atoms l : forall cur rest,
  separate (map snd (atom_toks l) ++ rest) cur = separate rest (cur ++ map atom_sym l).
Proof.
  induction l as [|a r IH]; intros cur rest; [cbn; now rewrite app_nil_r|].
  destruct r as [|b r'].
  - cbn [atom_toks map List.app snd]. rewrite separate_factor by apply atom_not_op. reflexivity.
  - rewrite atom_toks_cons by discriminate. cbn [map List.app snd]. rewrite separate_factor by apply atom_not_op.
    cbn [separate]. rewrite IH. rewrite <- app_assoc. reflexivity.
Qed.
Lemma separate_rule_from : forall r cur, cur <> [] -> Forall wf_term r -> Forall (fun t => t_sign t <> NoSign) r ->
  separate (map snd (rule_toks r)) cur = cur :: map term_syms r.
Proof.
  induction r as [|t r IH]; intros cur Hc Hw Hs; [reflexivity|].
  inversion Hw as [|? ? Ht Hw']; subst. inversion Hs as [|? ? Hst Hs']; subst.
  unfold rule_toks in *. cbn [map List.concat]. rewrite map_app. unfold term_toks at 1. rewrite map_app.
  rewrite <- app_assoc. unfold term_syms at 1.
  assert (E : forall y, (y = SAdd \/ y = SSub) -> separate (y :: map snd (atom_toks (norm (t_atoms t))) ++ map snd (List.concat (map term_toks r))) cur
     = cur :: ([y] ++ map atom_sym (norm (t_atoms t))) :: map term_syms r).
  { intros y Hy. assert (E : forall l, separate (y :: l) cur = cur :: separate l [y])
      by (intros l; destruct Hy as [->| ->]; cbn [separate]; destruct cur; congruence).
    rewrite E, separate_atoms, IH; auto. discriminate. }
  destruct (t_sign t); [congruence| |]; cbn [sign_toks map snd List.app sign_syms]; apply E; auto.
Qed.
Lemma separate_rule r : wf_rule r -> separate (map snd (rule_toks r)) [] = map term_syms r.
Proof.
  intros (Hne & Hw & Hs). destruct r as [|t r]; [congruence|]. inversion Hw as [|? ? [Ht Ha] Hw']; subst.
  unfold rule_toks. cbn [map List.concat]. rewrite map_app. unfold term_toks at 1. rewrite map_app, <- app_assoc.
  unfold term_syms at 1. cbn [tl] in Hs. pose proof (norm_ne _ Ht) as N.
  assert (F : forall c, separate (map snd (atom_toks (norm (t_atoms t))) ++ map snd (List.concat (map term_toks r))) c
              = (c ++ map atom_sym (norm (t_atoms t))) :: map term_syms r).
  { intros c. rewrite separate_atoms. apply separate_rule_from; auto.
    destruct (norm (t_atoms t)); [congruence|]. destruct c; discriminate. }
  destruct (t_sign t); cbn [sign_toks map snd List.app sign_syms separate]; apply F.
Qed.
Lemma compile_rule s r : wf_rule r -> writes s r -> compile s = gen_products None (map term_syms r).
Proof.
  intros Hw Hs. unfold compile. unfold writes in Hs.
  change (remove_spaces (list_ascii_of_string s)) with (filter (fun c => negb (Ascii.eqb " " c)) (list_ascii_of_string s)).
  rewrite Hs, (parse_show r Hw). cbn [obind]. now rewrite (separate_rule r Hw).
Qed.
