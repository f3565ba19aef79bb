(** * The grammars without conflicts are the LR(1) grammars *)
From Coq Require Import List Arith Lia Bool.
From Verif Require Import Lib Grammar LrModel LrSpec LrSets LrStates LrNew LrTop ParseModel Trees ParseSpec ParseInv ParseComplete GramFacts ParseTerm Lr1Spec.
Import ListNotations.

Lemma map_TM_inj a b : map TM a = map TM b -> a = b.
Proof. revert b. induction a as [|x a IH]; intros [|y b] H; try discriminate; auto. injection H as -> H. f_equal. auto. Qed.
Lemma map_TM_app l : forall a b, map TM l = a ++ b -> exists u v, l = u ++ v /\ a = map TM u /\ b = map TM v.
Proof.
  induction l as [|t l IH]; intros [|x a] b H; cbn [map app] in H.
  - exists [], []. auto.
  - discriminate.
  - exists [], (t :: l). auto.
  - injection H as <- H. destruct (IH _ _ H) as (u & v & -> & -> & ->). exists (t :: u), v. auto.
Qed.

Lemma firstn_next {A} n (l : list A) x : nth_error l n = Some x -> firstn (S n) l = firstn n l ++ [x].
Proof. revert n. induction l as [|y l IH]; intros [|n] H; try discriminate; simpl in *; [congruence|]. f_equal. auto. Qed.

Section Forms.
  Variables (rules : list rule) (start : nat).
  Notation form := (right_form rules start).
  Lemma form_ders : (forall X v, der rules X v -> forall a z, form (a ++ X :: map TM z) -> form (a ++ map TM (v ++ z))) /\
    (forall l v, ders rules l v -> forall a z, form (a ++ l ++ map TM z) -> form (a ++ map TM (v ++ z))).
  Proof.
    apply der_ders_ind.
    - intros t a z H. exact H.
    - intros r w Hr _ IH a z H. apply In_nth_error in Hr as [k Hk]. apply IH. eapply rf_step; eauto.
    - intros a z H. exact H.
    - intros X l u v _ IH1 _ IH2 a z H. rewrite <- app_assoc. apply IH1. change (X :: map TM (v ++ z)) with ([X] ++ map TM (v ++ z)). rewrite app_assoc. apply IH2.
      rewrite <- app_assoc. exact H.
  Qed.
  (** the last step of such a derivation, if there is one *)
  Definition last_step (a f : list sym) : Prop :=
    exists k r a' z', nth_error rules k = Some r /\ form (a' ++ NT (r_lhs r) :: map TM z') /\ a' ++ r_rhs r ++ map TM z' = f /\ length a <= length a'.
  Lemma form_last : (forall X v, der rules X v -> forall a z, form (a ++ X :: map TM z) -> [X] = map TM v \/ last_step a (a ++ map TM (v ++ z))) /\
    (forall l v, ders rules l v -> forall a z, form (a ++ l ++ map TM z) -> l = map TM v \/ last_step a (a ++ map TM (v ++ z))).
  Proof.
    apply der_ders_ind.
    - intros t a z H. auto.
    - intros r w Hr _ IH a z H. right. apply In_nth_error in Hr as [k Hk]. destruct (IH a z) as [E|Hl]; [eapply rf_step; eauto| |exact Hl].
      exists k, r, a, z. rewrite E, map_app. auto.
    - auto.
    - intros X l u v _ IH1 Hd IH2 a z H.
      assert (H1 : form ((a ++ [X]) ++ l ++ map TM z)) by (rewrite <- app_assoc; exact H).
      pose proof (proj2 form_ders _ _ Hd _ _ H1) as H2. rewrite <- app_assoc in H2.
      destruct (IH1 a (v ++ z) H2) as [E1|Hl].
      + destruct (IH2 (a ++ [X]) z H1) as [E2|(k & r & a' & z' & A & B & C & D)].
        * left. rewrite map_app, <- E1, <- E2. reflexivity.
        * right. exists k, r, a', z'. split; auto. split; auto. split; [rewrite C, <- app_assoc, !map_app, E1, <- app_assoc; reflexivity|rewrite app_length in D; lia].
      + right. rewrite <- app_assoc. exact Hl.
  Qed.
  Lemma form_no_eoi f : no_eoi rules -> form f -> ~ In (TM TEoi) f.
  Proof.
    intros He. induction 1 as [|k r a z H IH Hk]; [intros [H|[]]; discriminate|]. rewrite !in_app_iff in *. simpl in IH.
    apply nth_error_In in Hk. specialize (He r Hk). tauto.
  Qed.
End Forms.

Section Knuth.
  Variables (rules : list rule) (start ss : nat).
  Let rs := augment rules start ss.
  Let sr := length rules.
  Hypothesis Hss : ~ In ss (nonterminals rules).
  Hypothesis Heoi : no_eoi rules.
  Notation form := (right_form rules start).

  Lemma nth_rs k r : nth_error rules k = Some r -> nth_error rs k = Some r /\ k <> sr.
  Proof.
    intros H. assert (k < length rules) by (eapply nth_error_Some_lt; eauto). split; [|unfold sr; lia]. unfold rs, augment. rewrite nth_error_app1; auto.
  Qed.
  Lemma nth_rules k r : nth_error rs k = Some r -> k <> sr -> nth_error rules k = Some r.
  Proof.
    unfold rs, augment, sr. intros H Hk. destruct (Nat.lt_ge_cases k (length rules)) as [Hl|Hl]; [rewrite nth_error_app1 in H; auto|].
    rewrite nth_error_app2 in H by auto. destruct (k - length rules) as [|m] eqn:E; [lia|]. destruct m; discriminate.
  Qed.
  Lemma firsts_cut l a l' t : firsts rs (l ++ TM a :: l') t -> firsts rs (l ++ [TM a]) t.
  Proof.
    intros H. apply firsts_firstl. apply firsts_firstl in H. apply firstl_app in H as [H|[H1 H]]; apply firstl_app; auto. right. split; auto.
    inversion H; subst; [constructor|]. match goal with Hx : der _ (TM _) [] |- _ => inversion Hx end.
  Qed.
  Lemma eoi_cons z : exists l, map TM z ++ [TM TEoi] = TM (fst_of z TEoi) :: l.
  Proof. destruct z as [|x z]; eexists; reflexivity. Qed.

  Lemma form_valid f : form f -> forall d A e, f = d ++ NT A :: e -> forall k r t, nth_error rules k = Some r -> r_lhs r = A ->
    firsts rs (e ++ [TM TEoi]) t -> valid rs sr d (mk_item k 0 t).
  Proof.
    induction 1 as [|k0 r0 a z H IH Hk0]; intros d A e E0 k r t Hk Hl Ht.
    - destruct d as [|x d]; [|destruct d; discriminate]. injection E0 as <- <-. destruct (nth_rs _ _ Hk) as [Hk' _].
      eapply (valid_closure rs sr [] sr 0 TEoi (mk_rule ss [NT start])); eauto; [constructor|unfold rs, sr; apply augment_start|reflexivity].
    - apply app_eq_app in E0 as [m [[E1 E2]|[E1 E2]]].
      + destruct m as [|x m].
        * cbn [app] in E2. rewrite app_nil_r in E1. subst d. destruct (r_rhs r0) as [|x b] eqn:Eb.
          { destruct z; discriminate. }
          injection E2 as <- ->. destruct (nth_rs _ _ Hk0) as [Hk0' _]. destruct (nth_rs _ _ Hk) as [Hk' _]. destruct (eoi_cons z) as [lz Ez].
          eapply (valid_closure rs sr a k0 0 (fst_of z TEoi) r0); eauto; [|rewrite Eb; reflexivity|].
          { eapply IH; [reflexivity|exact Hk0|reflexivity|]. rewrite Ez. exists lz. constructor. }
          rewrite Eb. cbn [skipn]. rewrite <- app_assoc, Ez in Ht. eapply firsts_cut; eauto.
        * injection E2 as <- ->. eapply IH; [rewrite E1, <- app_assoc; reflexivity|exact Hk|exact Hl|].
          destruct Ht as [l' Hr]. exists l'. rewrite <- !app_assoc in *. cbn [app]. apply rewr_step with (r := r0); [|exact Hr]. apply nth_rs in Hk0 as [Hk0 _]. eapply nth_error_In; eauto.
      + subst d. apply app_eq_app in E2 as [m' [[E3 E4]|[E3 E4]]].
        * destruct m' as [|x b]; [destruct z; discriminate|]. injection E4 as <- ->.
          destruct (nth_rs _ _ Hk0) as [Hk0' _]. destruct (nth_rs _ _ Hk) as [Hk' _]. destruct (eoi_cons z) as [lz Ez].
          assert (Hv : valid rs sr a (mk_item k0 0 (fst_of z TEoi))) by (eapply IH; [reflexivity|exact Hk0|reflexivity|]; rewrite Ez; exists lz; constructor).
          pose proof (valid_adv rules start ss _ _ _ _ Hv Hk0' (length m)) as Hv2. rewrite E3 in Hv2. rewrite firstn_app, Nat.sub_diag, firstn_all, app_nil_r in Hv2.
          specialize (Hv2 ltac:(rewrite app_length; lia)).
          eapply (valid_closure rs sr (a ++ m) k0 (length m) (fst_of z TEoi) r0); eauto.
          { rewrite E3, nth_error_app2, Nat.sub_diag by lia. reflexivity. }
          rewrite E3. rewrite skipn_app. rewrite skipn_all2 by lia. replace (S (length m) - length m) with 1 by lia. cbn [skipn app].
          rewrite <- app_assoc, Ez in Ht. eapply firsts_cut; eauto.
        * exfalso. symmetry in E4. destruct (map_TM_app z _ _ (eq_sym E4)) as (u & v & _ & _ & Ev). destruct v; discriminate.
  Qed.
  Lemma form_complete k r a z : nth_error rules k = Some r -> form (a ++ NT (r_lhs r) :: map TM z) -> complete rs sr (a ++ r_rhs r) k (fst_of z TEoi).
  Proof.
    intros Hk H. destruct (eoi_cons z) as [lz Ez]. apply (valid_complete rules start ss); [|apply nth_rs; auto].
    eapply form_valid; [exact H|reflexivity|exact Hk|reflexivity|]. rewrite Ez. exists lz. constructor.
  Qed.
  Lemma viable_wants u : forall g X it, valid rs sr (g ++ X :: u) it -> wants rs sr g X.
  Proof.
    induction u as [|Y u IH] using rev_ind; intros g X it H.
    - apply wants_valid. eauto.
    - assert (Hw : wants rs sr (g ++ X :: u) Y) by (apply wants_valid; exists it; rewrite <- app_assoc; exact H).
      destruct Hw as (k & i & la & r & Hv & _). eapply IH; eauto.
  Qed.

  Lemma free_lr1 : conflict_free rs sr -> lr1 rules start.
  Proof.
    intros Hcf k r a z k' r' a' z' y Hk Hf Hk' Hf' E0 Hy.
    pose proof (form_complete _ _ _ _ Hk Hf) as Hc. pose proof (form_complete _ _ _ _ Hk' Hf') as Hc'.
    destruct (nth_rs _ _ Hk) as [Hrk Hsk]. destruct (nth_rs _ _ Hk') as [Hrk' Hsk'].
    destruct (Hcf _ _ _ Hsk Hc) as [N1 N2]. destruct (Hcf _ _ _ Hsk' Hc') as [N1' _].
    assert (Ey : fst_of y TEoi = fst_of z TEoi) by (destruct y, z; simpl in *; congruence).
    rewrite !app_assoc in E0. apply app_eq_app in E0 as [m [[E1 E2]|[E1 E2]]].
    - destruct (map_TM_app _ _ _ E2) as (u & v & -> & -> & E3). apply map_TM_inj in E3. subst v. destruct u as [|c u].
      + cbn [map app] in *. rewrite app_nil_r in E1. rewrite E1 in Hc'. rewrite Ey in Hc'. pose proof (N2 _ Hsk' Hc') as ->.
        rewrite Hk in Hk'. injection Hk' as <-. apply app_inv_tail in E1. auto.
      + exfalso. apply N1. cbn [map app fst_of] in *. rewrite <- Ey. destruct Hc' as (r0 & _ & Hv). rewrite E1 in Hv. eapply viable_wants; eauto.
    - destruct (map_TM_app _ _ _ E2) as (u & v & -> & -> & E3). apply map_TM_inj in E3. subst v. destruct u as [|c u].
      + cbn [map app] in *. rewrite app_nil_r in E1. rewrite <- E1 in Hc'. rewrite Ey in Hc'. pose proof (N2 _ Hsk' Hc') as ->.
        rewrite Hk in Hk'. injection Hk' as <-. apply app_inv_tail in E1. auto.
      + exfalso. apply N1'. cbn [map app fst_of] in *. destruct Hc as (r0 & _ & Hv). rewrite E1 in Hv. eapply viable_wants; eauto.
  Qed.

  Hypothesis Hprod : productive rules.
  (** every valid item comes from a rightmost derivation *)
  Lemma valid_form g it : valid rs sr g it ->
    match nth_error rules (i_rule it) with
    | Some r => exists d z, i_pos it <= length (r_rhs r) /\ g = d ++ firstn (i_pos it) (r_rhs r) /\ form (d ++ NT (r_lhs r) :: map TM z) /\ fst_of z TEoi = i_la it
    | None => i_rule it = sr /\ i_la it = TEoi /\ (g = [] /\ i_pos it = 0 \/ g = [NT start] /\ i_pos it = 1)
    end.
  Proof.
    induction 1 as [|g k p la r X H IH Hr Hp|g k p la r A k' r' t H IH Hr Hp Hr' Hl Ht]; cbn [i_rule i_pos i_la] in *.
    - unfold sr. rewrite (proj2 (nth_error_None rules (length rules))) by lia. auto.
    - destruct (Nat.eq_dec k sr) as [->|Hk].
      + unfold sr in *. rewrite (proj2 (nth_error_None rules (length rules))) in * by lia. unfold rs in Hr. rewrite augment_start in Hr. injection Hr as <-.
        destruct IH as (_ & E2 & [[-> ->]|[-> ->]]); [|discriminate]. injection Hp as <-. auto.
      + pose proof (nth_rules _ _ Hr Hk) as Hr0. rewrite Hr0 in *. destruct IH as (d & z & A1 & A2 & A3 & A4). exists d, z.
        assert (p < length (r_rhs r)) by (eapply nth_error_Some_lt; eauto). split; [lia|]. split; [|auto].
        rewrite A2, <- app_assoc. f_equal. symmetry. apply firstn_next. auto.
    - destruct (Nat.eq_dec k sr) as [->|Hk].
      + unfold sr in IH. rewrite (proj2 (nth_error_None rules (length rules))) in IH by lia. unfold rs, sr in Hr. rewrite augment_start in Hr. injection Hr as <-.
        destruct IH as (_ & -> & [[-> ->]|[-> ->]]); [|discriminate]. injection Hp as <-.
        assert (Et : t = TEoi).
        { destruct Ht as [l' Ht]. cbn [skipn r_rhs app] in Ht. inversion Ht as [|l1 r1 l2 l0 _ _ E1]; subst; [reflexivity|]. destruct l1 as [|? [|]]; discriminate. }
        destruct (Nat.eq_dec k' sr) as [->|Hk'].
        { unfold sr. rewrite (proj2 (nth_error_None rules (length rules))) by lia. auto. }
        rewrite (nth_rules _ _ Hr' Hk'). exists [], []. split; [lia|]. split; [auto|]. rewrite Hl. split; [subst; constructor|subst; reflexivity].
      + pose proof (nth_rules _ _ Hr Hk) as Hr0. rewrite Hr0 in IH. destruct IH as (d & z & A1 & A2 & A3 & A4).
        assert (Hk' : k' <> sr). { intros ->. unfold rs, sr in Hr'. rewrite augment_start in Hr'. injection Hr' as <-.
          apply (ss_rhs rules ss Hss r (nth_error_In _ _ Hr0)). cbn [r_lhs] in Hl. subst A. eapply nth_error_In; eauto. }
        rewrite (nth_rules _ _ Hr' Hk').
        destruct (firsts_word rules start ss Hss (skipn (S p) (r_rhs r)) la t Hprod Ht) as (v & Hv & Ev).
        { pose proof (prod_ok rules ss Hss r Hprod (nth_error_In _ _ Hr0)) as Ho. rewrite Forall_forall in *. intros X HX. apply Ho. rewrite <- (firstn_skipn (S p)). apply in_or_app. auto. }
        exists g, (v ++ z). split; [lia|]. split; [cbn [firstn]; rewrite app_nil_r; auto|]. split; [|rewrite fst_of_app; congruence].
        rewrite Hl. change (g ++ NT A :: map TM (v ++ z)) with (g ++ [NT A] ++ map TM (v ++ z)). rewrite app_assoc. apply (proj2 (form_ders rules start) _ _ Hv).
        pose proof (rf_step rules start k r d z A3 Hr0) as Hf. rewrite <- (firstn_skipn p (r_rhs r)) in Hf. rewrite (skipn_nth_cons _ _ _ Hp) in Hf.
        rewrite A2. rewrite <- !app_assoc in *. exact Hf.
  Qed.
  Lemma complete_form g k t : complete rs sr g k t -> k <> sr ->
    exists r d z, nth_error rules k = Some r /\ g = d ++ r_rhs r /\ form (d ++ NT (r_lhs r) :: map TM z) /\ fst_of z TEoi = t.
  Proof.
    intros (r & Hr & Hv) Hk. pose proof (nth_rules _ _ Hr Hk) as Hr0. pose proof (valid_form _ _ Hv) as H. cbn [i_rule i_pos i_la] in H. rewrite Hr0 in H.
    destruct H as (d & z & _ & A2 & A3 & A4). rewrite firstn_all in A2. exists r, d, z. auto.
  Qed.
  Lemma fst_hd a z t : form (a ++ map TM z) -> fst_of z TEoi = t -> hd_error z = match t with TEoi => None | _ => Some t end.
  Proof.
    intros Hf <-. destruct z as [|x z]; auto. simpl. destruct x; auto. exfalso. apply (form_no_eoi _ _ _ Heoi Hf). apply in_or_app. right. left. reflexivity.
  Qed.
  Lemma lr1_free : lr1 rules start -> conflict_free rs sr.
  Proof.
    intros Hl g k t Hk Hc. destruct (complete_form _ _ _ Hc Hk) as (r & d & z & Hr & Eg & Hf & Hz).
    assert (Hz' : hd_error z = match t with TEoi => None | _ => Some t end).
    { apply (fst_hd (d ++ [NT (r_lhs r)])); auto. rewrite <- app_assoc. exact Hf. }
    split.
    - intros (k1 & p & la & r1 & Hv & Hr1 & Hp). pose proof (valid_form _ _ Hv) as H. cbn [i_rule i_pos i_la] in H.
      destruct (nth_error rules k1) as [r1'|] eqn:Ek1.
      + pose proof (proj1 (nth_rs _ _ Ek1)) as E1. rewrite Hr1 in E1. injection E1 as <-. destruct H as (d1 & z1 & A1 & A2 & A3 & A4).
        assert (Hr1' : In r1 rules) by (eapply nth_error_In; eauto).
        assert (Ht : t <> TEoi) by (intros ->; apply (Heoi r1 Hr1'); eapply nth_error_In; eauto).
        assert (Hz2 : hd_error z = Some t) by (destruct t; congruence). clear Hz'.
        destruct (ok_ders rules ss (skipn (S p) (r_rhs r1))) as [v Hv1].
        { pose proof (prod_ok rules ss Hss r1 Hprod Hr1') as Ho. rewrite Forall_forall in *. intros X HX. apply Ho. rewrite <- (firstn_skipn (S p)). apply in_or_app. auto. }
        pose proof (rf_step rules start k1 r1 d1 z1 A3 Ek1) as Hf1. rewrite <- (firstn_skipn p (r_rhs r1)) in Hf1. rewrite (skipn_nth_cons _ _ _ Hp) in Hf1.
        assert (Hf2 : form ((g ++ [TM t]) ++ skipn (S p) (r_rhs r1) ++ map TM z1)) by (rewrite A2; rewrite <- !app_assoc in *; exact Hf1).
        destruct (proj2 (form_last rules start) _ _ Hv1 _ _ Hf2) as [Ev|(k2 & r2 & a2 & z2 & B1 & B2 & B3 & B4)].
        * destruct (Hl k r d z k1 r1 d1 z1 (t :: v ++ z1)) as (_ & _ & E3); auto.
          { rewrite <- (firstn_skipn p (r_rhs r1)), (skipn_nth_cons _ _ _ Hp), Ev. rewrite <- app_assoc, (app_assoc d1), <- A2, Eg. cbn [map app]. rewrite map_app, <- !app_assoc. reflexivity. }
          apply (f_equal (@length term)) in E3. simpl in E3. rewrite app_length in E3. lia.
        * destruct (Hl k r d z k2 r2 a2 z2 (t :: v ++ z1)) as (_ & E3 & _); auto.
          { rewrite B3, Eg. rewrite <- !app_assoc. reflexivity. }
          subst a2. rewrite Eg, !app_length in B4. simpl in B4. lia.
      + destruct H as (-> & -> & [[-> ->]|[-> ->]]); unfold rs, sr in Hr1; rewrite augment_start in Hr1; injection Hr1 as <-; discriminate.
    - intros k' Hk' Hc'. destruct (complete_form _ _ _ Hc' Hk') as (r' & d' & z' & Hr' & Eg' & Hf' & Hz1).
      assert (Hz1' : hd_error z' = match t with TEoi => None | _ => Some t end).
      { apply (fst_hd (d' ++ [NT (r_lhs r')])); auto. rewrite <- app_assoc. exact Hf'. }
      destruct (Hl k r d z k' r' d' z' z') as (E & _ & _); auto; [|congruence]. rewrite !app_assoc, <- Eg, <- Eg'. reflexivity.
  Qed.
End Knuth.

(** ** Derivations with their number of steps *)
Section Count.
  Variables (rules : list rule) (start : nat).
  Inductive cder : nat -> sym -> list term -> Prop :=
  | cder_term t : cder 0 (TM t) [t]
  | cder_rule n r w : In r rules -> cders n (r_rhs r) w -> cder (S n) (NT (r_lhs r)) w
  with cders : nat -> list sym -> list term -> Prop :=
  | cders_nil : cders 0 [] []
  | cders_cons n m X l u v : cder n X u -> cders m l v -> cders (n + m) (X :: l) (u ++ v).
  Inductive cform : nat -> list sym -> Prop :=
  | cf_start : cform 0 [NT start]
  | cf_step n k r a z : cform n (a ++ NT (r_lhs r) :: map TM z) -> nth_error rules k = Some r -> cform (S n) (a ++ r_rhs r ++ map TM z).
  Lemma cform_form n f : cform n f -> right_form rules start f.
  Proof. induction 1; econstructor; eauto. Qed.
  Lemma der_cder : (forall X w, der rules X w -> exists n, cder n X w) /\ (forall l w, ders rules l w -> exists n, cders n l w).
  Proof.
    apply der_ders_ind.
    - intros t. exists 0. constructor.
    - intros r w Hr _ [n IH]. exists (S n). constructor; auto.
    - exists 0. constructor.
    - intros X l u v _ [n IH1] _ [m IH2]. exists (n + m). constructor; auto.
  Qed.
  Lemma cders_app l1 : forall l2 n w, cders n (l1 ++ l2) w -> exists n1 n2 w1 w2, n = n1 + n2 /\ w = w1 ++ w2 /\ cders n1 l1 w1 /\ cders n2 l2 w2.
  Proof.
    induction l1 as [|X l1 IH]; intros l2 n w H; simpl in H.
    - exists 0, n, [], w. repeat split; auto. constructor.
    - inversion H as [|n0 m X0 l u v Hx Hl]; subst. destruct (IH _ _ _ Hl) as (n1 & n2 & w1 & w2 & -> & -> & A & B).
      exists (n0 + n1), n2, (u ++ w1), w2. split; [lia|]. rewrite app_assoc. repeat split; auto. constructor; auto.
  Qed.
  Lemma cders_app2 n1 l1 w1 : cders n1 l1 w1 -> forall n2 l2 w2, cders n2 l2 w2 -> cders (n1 + n2) (l1 ++ l2) (w1 ++ w2).
  Proof.
    intros H. revert n1 w1 H. induction l1 as [|X l1 IH]; intros n1 w1 H n2 l2 w2 H2; inversion H as [|n0 m X0 l u v Hx Hl]; subst; [exact H2|].
    rewrite <- app_assoc, <- Nat.add_assoc. cbn [app]. constructor; auto.
  Qed.
  Lemma cders_one n X w : cder n X w -> cders n [X] w.
  Proof. intros H. rewrite <- (app_nil_r w), <- (Nat.add_0_r n). constructor; [auto|constructor]. Qed.
  Lemma cders_one_inv n X w : cders n [X] w -> cder n X w.
  Proof. intros H. inversion H as [|n0 m X0 l u v Hx Hl]; subst. inversion Hl; subst. rewrite app_nil_r, Nat.add_0_r. auto. Qed.
  Lemma rewr_cders l l' : rewr rules l l' -> forall n w, cders n l' w -> exists m, n <= m /\ cders m l w.
  Proof.
    induction 1 as [l|l1 r l2 l' Hr H IH]; intros n w Hw; [eauto|]. destruct (IH _ _ Hw) as (m & Hm & Hd).
    apply cders_app in Hd as (n1 & n2 & w1 & w2 & -> & -> & A & B). apply cders_app in B as (n3 & n4 & w3 & w4 & -> & -> & B & C).
    exists (n1 + (S n3 + n4)). split; [lia|]. apply cders_app2; auto. constructor; auto. constructor; auto.
  Qed.
  Scheme cder_mut := Minimality for cder Sort Prop
  with cders_mut := Minimality for cders Sort Prop.
  Combined Scheme cder_cders_ind from cder_mut, cders_mut.
  Lemma cform_cders : (forall n X v, cder n X v -> forall m a z, cform m (a ++ X :: map TM z) -> cform (n + m) (a ++ map TM (v ++ z))) /\
    (forall n l v, cders n l v -> forall m a z, cform m (a ++ l ++ map TM z) -> cform (n + m) (a ++ map TM (v ++ z))).
  Proof.
    apply cder_cders_ind.
    - intros t m a z H. exact H.
    - intros n r w Hr _ IH m a z H. apply In_nth_error in Hr as [k Hk]. replace (S n + m) with (n + S m) by lia. apply IH. eapply cf_step; eauto.
    - intros m a z H. exact H.
    - intros n m X l u v _ IH1 _ IH2 j a z H. rewrite <- app_assoc, <- Nat.add_assoc. apply IH1. change (X :: map TM (v ++ z)) with ([X] ++ map TM (v ++ z)). rewrite app_assoc. apply IH2.
      rewrite <- app_assoc. exact H.
  Qed.

  Hypothesis Hl : lr1 rules start.
  Hypothesis Hno : forall k r a z, nth_error rules k = Some r -> right_form rules start (a ++ NT (r_lhs r) :: map TM z) -> a ++ r_rhs r ++ map TM z <> [NT start].
  Lemma cform_unique n f : cform n f -> forall m, cform m f -> n = m.
  Proof.
    induction 1 as [|n k r a z H IH Hk]; intros m Hm.
    - inversion Hm as [|n k r a z Hf Hk E0 E1]; auto. exfalso. eapply Hno; eauto. eapply cform_form; eauto.
    - inversion Hm as [E0 E1|n' k' r' a' z' Hf' Hk' E0 E1].
      + exfalso. eapply Hno; eauto. eapply cform_form; eauto.
      + destruct (Hl k r a z k' r' a' z' z Hk (cform_form _ _ H) Hk' (cform_form _ _ Hf') E1 eq_refl) as (-> & -> & ->).
        rewrite Hk in Hk'. injection Hk' as <-. f_equal. auto.
  Qed.
  Lemma count_cyclic : productive rules -> ~ cyclic rules start.
  Proof.
    intros Hp (r & Hr & Er & Hw).
    assert (Hd : exists w, der rules (NT start) w).
    { assert (G : forall l l', rewr rules l l' -> forall X, In X l' -> In X l \/ exists r0, In r0 rules /\ In X (r_rhs r0)).
      { induction 1 as [l|l1 r0 l2 l' Hr0 H IH]; intros X HX; auto. destruct (IH X HX) as [H1|H1]; auto. rewrite !in_app_iff in H1. rewrite in_app_iff. simpl.
        destruct H1 as [H1|[H1|H1]]; eauto. }
      destruct (G _ _ Hw (NT start) (or_introl eq_refl)) as [H|(r0 & H0 & H1)]; [|eapply Hp; eauto]. eapply Hp; eauto. }
    destruct Hd as [w Hd]. destruct (proj1 der_cder _ _ Hd) as [n Hn]. destruct (rewr_cders _ _ Hw n w (cders_one _ _ _ Hn)) as (m & Hm & Hd2).
    pose proof (cder_rule _ _ _ Hr Hd2) as Hn2. rewrite Er in Hn2.
    pose proof (proj1 cform_cders _ _ _ Hn 0 [] [] cf_start) as F1. pose proof (proj1 cform_cders _ _ _ Hn2 0 [] [] cf_start) as F2.
    pose proof (cform_unique _ _ F1 _ F2). lia.
  Qed.
End Count.

Lemma snoc_z {A} (l : list A) : l = [] \/ exists l0 x, l = l0 ++ [x].
Proof. destruct l as [|y l]; auto. right. destruct (@exists_last _ (y :: l)) as (l0 & x & H); [discriminate|]. eauto. Qed.

(** ** The grammar with the start rule added *)
Section Aug.
  Variables (rules : list rule) (start ss : nat).
  Let rs := augment rules start ss.
  Let sr := length rules.
  Hypothesis Hss : ~ In ss (nonterminals rules).
  Hypothesis Heoi : no_eoi rules.
  Notation form := (right_form rules start).

  Lemma form_rs f : form f -> right_form rs ss f.
  Proof.
    induction 1 as [|k r a z H IH Hk].
    - apply (rf_step rs ss sr (mk_rule ss [NT start]) [] []); [constructor|unfold rs, sr; apply augment_start].
    - eapply rf_step; [exact IH|]. apply (nth_rs rules start ss); eauto.
  Qed.
  Lemma form_ss f : form f -> In (NT ss) f -> f = [NT start].
  Proof.
    induction 1 as [|k r a z H IH Hk]; intros Hi; auto. exfalso. rewrite !in_app_iff in *. cbn [In] in IH.
    assert (Hn : ~ In (NT ss) (r_rhs r)) by (apply (ss_rhs rules ss Hss); eapply nth_error_In; eauto).
    assert (Hz : ~ In (NT ss) (map TM z)) by (rewrite in_map_iff; intros (x & Hx & _); discriminate).
    assert (Ha : In (NT ss) a) by tauto. specialize (IH (or_introl Ha)). destruct a as [|x a]; [destruct Ha|]. injection IH as _ IH. destruct a; discriminate.
  Qed.
  Lemma rs_form f : right_form rs ss f -> f = [NT ss] \/ form f.
  Proof.
    induction 1 as [|k r a z H IH Hk]; auto. right. destruct (Nat.eq_dec k sr) as [->|Hne].
    - unfold rs, sr in Hk. rewrite augment_start in Hk. injection Hk as <-. cbn [r_lhs r_rhs] in *.
      assert (E0 : a = [] /\ z = []).
      { destruct IH as [IH|IH]; [|pose proof (form_ss _ IH ltac:(apply in_or_app; right; left; reflexivity)) as IH'; clear IH; rename IH' into IH].
        - destruct a as [|x a]; [destruct z; [auto|discriminate]|injection IH as _ IH; destruct a; discriminate].
        - destruct a as [|x a]; [destruct z; [auto|discriminate]|injection IH as _ IH; destruct a; discriminate]. }
      destruct E0 as [-> ->]. constructor.
    - pose proof (nth_rules rules start ss _ _ Hk Hne) as Hk0. destruct IH as [IH|IH]; [|eapply rf_step; eauto].
      exfalso. assert (E0 : r_lhs r = ss) by (destruct a as [|x a]; [cbn [app] in IH; congruence|injection IH as _ IH; destruct a; discriminate]).
      apply (ss_lhs rules ss Hss r (nth_error_In _ _ Hk0)). auto.
  Qed.
  Lemma rs_handle k r a z : nth_error rs k = Some r -> right_form rs ss (a ++ NT (r_lhs r) :: map TM z) ->
    k = sr /\ r = mk_rule ss [NT start] /\ a = [] /\ z = [] \/ k <> sr /\ nth_error rules k = Some r /\ form (a ++ NT (r_lhs r) :: map TM z).
  Proof.
    intros Hk Hf. destruct (Nat.eq_dec k sr) as [->|Hne].
    - left. unfold rs, sr in Hk. rewrite augment_start in Hk. injection Hk as <-. cbn [r_lhs] in *. split; auto. split; auto.
      apply rs_form in Hf as [Hf|Hf]; [|apply form_ss in Hf; [|apply in_or_app; right; left; reflexivity]];
        (destruct a as [|x a]; [destruct z; [auto|discriminate]|injection Hf as _ Hf; destruct a; discriminate]).
    - right. pose proof (nth_rules rules start ss _ _ Hk Hne) as Hk0. split; auto. split; auto. apply rs_form in Hf as [Hf|Hf]; auto.
      exfalso. assert (E0 : r_lhs r = ss) by (destruct a as [|x a]; [cbn [app] in Hf; congruence|injection Hf as _ Hf; destruct a; discriminate]).
      apply (ss_lhs rules ss Hss r (nth_error_In _ _ Hk0)). auto.
  Qed.
  Lemma aug_lr1 : lr1 rs ss -> lr1 rules start /\ (forall k r a z, nth_error rules k = Some r -> form (a ++ NT (r_lhs r) :: map TM z) -> a ++ r_rhs r ++ map TM z <> [NT start]).
  Proof.
    intros Hl. split.
    - intros k r a z k' r' a' z' y Hk Hf Hk' Hf' E0 Hy. apply (Hl k r a z k' r' a' z' y); auto using form_rs; apply (nth_rs rules start ss); auto.
    - intros k r a z Hk Hf E0. destruct (nth_rs rules start ss _ _ Hk) as [Hk' Hne]. apply Hne.
      destruct (Hl sr (mk_rule ss [NT start]) [] [] k r a z []) as [E1 _]; auto using form_rs; [unfold rs, sr; apply augment_start|constructor].
  Qed.
  Lemma accepting_start : accepting rs sr [NT start].
  Proof.
    exists (mk_rule ss [NT start]). split; [unfold rs, sr; apply augment_start|]. apply (valid_goto rs sr [] sr 0 TEoi (mk_rule ss [NT start]) (NT start)); [constructor|unfold rs, sr; apply augment_start|reflexivity].
  Qed.
  Lemma lr1_aug : conflict_free rs sr -> ~ cyclic rules start -> lr1 rs ss.
  Proof.
    intros Hcf Hnc.
    assert (G : forall k r a z, nth_error rules k = Some r -> form (a ++ NT (r_lhs r) :: map TM z) -> a ++ r_rhs r = [NT start] -> z = [] -> False).
    { intros k r a z Hk Hf E0 ->. pose proof (form_complete rules start ss _ _ _ _ Hk Hf) as Hc. rewrite E0 in Hc. apply Hnc. apply (early_cyclic rules start ss Hss Heoi).
      exists [NT start], k. split; [apply (nth_rs rules start ss _ _ Hk)|]. split; [exact Hc|apply accepting_start]. }
    intros k r a z k' r' a' z' y Hk Hf Hk' Hf' E0 Hy.
    destruct (rs_handle _ _ _ _ Hk Hf) as [(-> & -> & -> & ->)|(Hne & Hk0 & Hf0)]; destruct (rs_handle _ _ _ _ Hk' Hf') as [(-> & -> & -> & ->)|(Hne' & Hk0' & Hf0')].
    - destruct y; [auto|discriminate].
    - exfalso. destruct y; [|discriminate]. cbn [r_rhs map app] in E0.
      assert (E1 : a' ++ r_rhs r' = [NT start] /\ z' = []).
      { destruct (snoc_z z') as [->|(z0 & c & ->)]; [rewrite app_assoc, app_nil_r in E0; auto|]. exfalso. rewrite map_app, !app_assoc in E0. apply (app_inj_tail _ [] ) in E0 as [_ E0]. discriminate. }
      destruct E1 as [E1 E2]. eauto.
    - exfalso. cbn [r_rhs map app] in E0.
      assert (E1 : a ++ r_rhs r = [NT start] /\ y = []).
      { destruct (snoc_z y) as [->|(z0 & c & ->)]; [rewrite app_assoc, app_nil_r in E0; auto|]. exfalso. rewrite map_app, !app_assoc in E0. symmetry in E0. apply (app_inj_tail _ [] ) in E0 as [_ E0]. discriminate. }
      destruct E1 as [E1 ->]. destruct z; [|discriminate]. eauto.
    - apply (free_lr1 rules start ss Hcf k r a z k' r' a' z' y); auto.
  Qed.
End Aug.
