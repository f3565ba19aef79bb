(** * Grammars whose tokens tell the constructs apart: the parser loses nothing *)
From Coq Require Import List Arith Lia Bool.
From Verif Require Import Lib Grammar LrModel LrSpec LrNew ParseModel GramFacts MachSpec LoopSpec AmbigSpec.
Import ListNotations.

Lemma snoc_inj {A} (l l' : list A) x y : l ++ [x] = l' ++ [y] -> l = l' /\ x = y.
Proof. apply app_inj_tail. Qed.
Lemma two_app {A} (l : list A) x y : l ++ [x; y] = (l ++ [x]) ++ [y].
Proof. rewrite <- app_assoc. reflexivity. Qed.
Lemma firstn_len_app {A} (l l' : list A) : firstn (length l) (l ++ l') = l.
Proof. rewrite firstn_app, Nat.sub_diag, firstn_all. cbn. apply app_nil_r. Qed.
Lemma nth_len_app {A} (l l' : list A) x : nth_error (l ++ x :: l') (length l) = Some x.
Proof. rewrite nth_error_app2, Nat.sub_diag by lia. reflexivity. Qed.
Lemma skipn_len_app {A} (l l' : list A) x : skipn (S (length l)) (l ++ x :: l') = l'.
Proof. induction l; cbn; auto. Qed.

Section Apart.
  Variables (rules : list rule) (start ss : nat).
  Hypothesis TA : told_apart rules.
  Hypothesis Hst : In start (nonterminals rules).
  Hypothesis Hss : ~ In ss (nonterminals rules).
  Notation G := (augment rules start ss).
  Notation sr := (length rules).
  Notation isp := (begins rules).
  Notation isr := (is_rule rules).

  (** ** A pushdown machine for such grammars: open constructs, each with what has been read of it and the operand it waits for *)
  Notation frame := (list sym * nat)%type.
  Definition ex (st : list frame) : nat := match st with [] => start | (_, A) :: _ => A end.
  Inductive mode := Need | Have | Pre (l : list sym).
  Inductive acc : list frame -> mode -> list term -> Prop :=
  | a_need st t z : isp (ex st) [TM t] -> acc st (Pre [TM t]) z -> acc st Need (t :: z)
  | a_tok st l t z : isp (ex st) (l ++ [TM t]) -> acc st (Pre (l ++ [TM t])) z -> acc st (Pre l) (t :: z)
  | a_open st l A z : isp (ex st) (l ++ [NT A]) -> acc ((l, A) :: st) Need z -> acc st (Pre l) z
  | a_full st l z : isr (ex st) l -> acc st Have z -> acc st (Pre l) z
  | a_op st t z : isp (ex st) [NT (ex st); TM t] -> acc st (Pre [NT (ex st); TM t]) z -> acc st Have (t :: z)
  | a_mid l A st t z : isp (ex st) (l ++ [NT A; TM t]) -> acc st (Pre (l ++ [NT A; TM t])) z -> acc ((l, A) :: st) Have (t :: z)
  | a_close l A st z : isr (ex st) (l ++ [NT A]) -> acc st Have z -> acc ((l, A) :: st) Have z
  | a_end : acc [] Have [].

  Lemma isr_isp A l : isr A l -> isp A l.
  Proof. intros H. exists (mk_rule A l), []. rewrite app_nil_r. auto. Qed.
  Lemma isp_pre A l l' : isp A (l ++ l') -> isp A l.
  Proof. intros (r & l0 & Hr & Hl & E). exists r, (l' ++ l0). rewrite E, <- app_assoc. auto. Qed.
  Lemma isp_next A l B C l' : ~ isp A (l ++ NT B :: NT C :: l').
  Proof. intros (r & l0 & Hr & Hl & E). apply (ta_next _ TA r l B C (l' ++ l0) Hr). rewrite E, <- app_assoc. reflexivity. Qed.
  Lemma isp_left A B l : isp A (NT B :: l) -> B = A.
  Proof. intros (r & l0 & Hr & Hl & E). rewrite <- Hl. apply (ta_left _ TA r B (l ++ l0) Hr). exact E. Qed.

  (** every derivable string is accepted *)
  Lemma acc_der : (forall X w, der rules X w -> forall A, X = NT A -> forall st z, A = ex st -> acc st Have z -> acc st Need (w ++ z)) /\
    (forall l w, ders rules l w -> forall r l0 st z, In r rules -> r_rhs r = l0 ++ l -> r_lhs r = ex st -> acc st Have z ->
       (l0 <> [] -> ~ after_operand l0 -> acc st (Pre l0) (w ++ z)) /\
       (l0 = [] -> acc st Need (w ++ z)) /\
       (forall l1 A, l0 = l1 ++ [NT A] -> l1 <> [] -> acc ((l1, A) :: st) Have (w ++ z)) /\
       (forall A, l0 = [NT A] -> acc st Have (w ++ z))).
  Proof.
    apply der_ders_ind.
    - discriminate.
    - intros r w Hr Hw IH A EA st z E Hz. injection EA as EA. apply (IH r []); auto. congruence.
    - intros r l0 st z Hr E El Hz. rewrite app_nil_r in E. cbn [app]. split; [|split; [|split]].
      + intros _ _. apply a_full; auto. rewrite <- El, <- E. destruct r. exact Hr.
      + intros ->. destruct (ta_some _ TA r Hr E).
      + intros l1 A -> Hl1. apply a_close; auto. rewrite <- El, <- E. destruct r. exact Hr.
      + intros A ->. destruct (ta_single _ TA r A Hr E).
    - intros X l u v HX IHX Hl IHl r l0 st z Hr E El Hz. rewrite <- app_assoc.
      assert (E' : r_rhs r = (l0 ++ [X]) ++ l) by (rewrite <- app_assoc; exact E).
      assert (Hp : isp (ex st) (l0 ++ [X])) by (exists r, l; auto).
      specialize (IHl r (l0 ++ [X]) st z Hr E' El Hz) as (I1 & I2 & I3 & I4).
      assert (Ht : forall t, X = TM t -> ~ after_operand (l0 ++ [X])) by (intros t -> (l' & A & EA); apply snoc_inj in EA as [_ EA]; discriminate).
      assert (Hne : l0 ++ [X] <> []) by (destruct l0; discriminate).
      destruct X as [B|t].
      + split; [|split; [|split]].
        * intros Hn Ha. apply (a_open st l0 B); auto. apply (IHX B); auto.
        * intros ->. cbn [app] in *. assert (EB : B = ex st) by (apply (isp_left _ _ []); exact Hp). apply (IHX B); auto. apply (I4 B). reflexivity.
        * intros l1 A -> Hn. exfalso. rewrite <- app_assoc in Hp. exact (isp_next _ _ _ _ _ Hp).
        * intros A ->. exfalso. exact (isp_next _ [] _ _ _ Hp).
      + inversion HX; subst. cbn [app]. split; [|split; [|split]].
        * intros Hn Ha. apply a_tok; auto. apply I1; auto. eapply Ht; eauto.
        * intros ->. apply a_need; auto. apply I1; auto. eapply Ht; eauto.
        * intros l1 A -> Hn. rewrite <- two_app in *. apply a_mid; auto. apply I1; auto. eapply Ht; eauto.
        * intros A ->. cbn [app] in *. assert (EA : A = ex st) by (apply (isp_left _ _ [TM t]); exact Hp). rewrite EA in *. apply a_op; auto. apply I1; auto. eapply Ht; eauto.
  Qed.
  Lemma acc_word w : der rules (NT start) w -> acc [] Need w.
  Proof. intros Hd. rewrite <- (app_nil_r w). apply (proj1 acc_der _ _ Hd start); auto. constructor. Qed.

  (** ** Open constructs that could end here can be put in between *)
  Inductive closable : list frame -> list frame -> Prop :=
  | cl_nil st : closable [] st
  | cl_more l A ro st : isr (ex (ro ++ st)) (l ++ [NT A]) -> closable ro st -> closable ((l, A) :: ro) st.
  Lemma close_all ro st z : closable ro st -> acc st Have z -> acc (ro ++ st) Have z.
  Proof. induction 1; intros Hz; auto. cbn. apply a_close; auto. Qed.
  Lemma insert ro s2 : closable ro s2 -> ex (ro ++ s2) = ex s2 -> forall st m z, acc st m z -> forall s1, st = s1 ++ s2 -> acc (s1 ++ ro ++ s2) m z.
  Proof.
    intros Hc He. assert (Hex : forall s1, ex (s1 ++ ro ++ s2) = ex (s1 ++ s2)) by (intros [|[l A] s1]; auto).
    intros st m z Ha. induction Ha as [st t z Hp Ha IH|st l t z Hp Ha IH|st l A z Hp Ha IH|st l z Hp Ha IH|st t z Hp Ha IH|l A st t z Hp Ha IH|l A st z Hp Ha IH|]; intros s1 Es.
    - apply a_need; [rewrite Hex, <- Es; auto|auto].
    - apply a_tok; [rewrite Hex, <- Es; auto|auto].
    - eapply a_open; [rewrite Hex, <- Es; exact Hp|]. apply (IH ((l, A) :: s1)). rewrite Es. reflexivity.
    - apply a_full; [rewrite Hex, <- Es; auto|auto].
    - apply a_op; rewrite Hex, <- Es; auto.
    - destruct s1 as [|f s1]; [cbn in *; apply close_all; auto; subst s2; apply a_mid; auto|]. cbn in Es. injection Es as <- Es. cbn. apply a_mid; [rewrite Hex, <- Es; auto|auto].
    - destruct s1 as [|f s1]; [cbn in *; apply close_all; auto; subst s2; apply a_close; auto|]. cbn in Es. injection Es as <- Es. cbn. apply a_close; [rewrite Hex, <- Es; auto|auto].
    - destruct s1; [|discriminate]. cbn in *. subst s2. apply close_all; auto. constructor.
  Qed.
  Lemma greedy st m z0 : acc st m z0 -> m = Have -> forall t z, z0 = t :: z ->
    (isp (ex st) [NT (ex st); TM t] /\ acc st (Pre [NT (ex st); TM t]) z) \/
    (exists l A st0, st = (l, A) :: st0 /\ isp (ex st0) (l ++ [NT A; TM t]) /\ acc st0 (Pre (l ++ [NT A; TM t])) z) \/
    (exists l A st0, st = (l, A) :: st0 /\ isr (ex st0) (l ++ [NT A]) /\
      exists ro s2, st0 = ro ++ s2 /\ closable ro s2 /\
      ((isp (ex s2) [NT (ex s2); TM t] /\ acc s2 (Pre [NT (ex s2); TM t]) z) \/
       (exists l' A' s3, s2 = (l', A') :: s3 /\ isp (ex s3) (l' ++ [NT A'; TM t]) /\ acc s3 (Pre (l' ++ [NT A'; TM t])) z))).
  Proof.
    intros Ha. induction Ha as [st t z Hp Ha IH|st l t z Hp Ha IH|st l A z Hp Ha IH|st l z Hp Ha IH|st t z Hp Ha IH|l A st t z Hp Ha IH|l A st z Hp Ha IH|]; intros Em t0 z1 Ez; try discriminate.
    - injection Ez as <- <-. auto.
    - injection Ez as <- <-. right. left. exists l, A, st. auto.
    - right. right. exists l, A, st. split; [auto|]. split; [auto|]. destruct (IH eq_refl t0 z1 Ez) as [[H1 H2]|[(l1 & A1 & st0 & E1 & H1 & H2)|(l1 & A1 & st0 & E1 & H1 & ro & s2 & E2 & H2 & H3)]].
      + exists [], st. split; [auto|]. split; [constructor|]. auto.
      + exists [], st. split; [auto|]. split; [constructor|]. right. exists l1, A1, st0. auto.
      + exists ((l1, A1) :: ro), s2. split; [cbn; congruence|]. split; [apply cl_more; [rewrite E2 in H1; exact H1|exact H2]|]. exact H3.
  Qed.

  (** ** What the symbols recognised so far mean *)
  Inductive rd : list sym -> list frame -> mode -> Prop :=
  | r_start : rd [] [] Need
  | r_tok g st t : rd g st Need -> isp (ex st) [TM t] -> rd (g ++ [TM t]) st (Pre [TM t])
  | r_nt g st : rd g st Need -> rd (g ++ [NT (ex st)]) st Have
  | r_open g st l A : rd g st (Pre l) -> isp (ex st) (l ++ [NT A]) -> rd g ((l, A) :: st) Need
  | r_more g st l t : rd g st (Pre l) -> isp (ex st) (l ++ [TM t]) -> rd (g ++ [TM t]) st (Pre (l ++ [TM t]))
  | r_op g st t : rd g st Have -> isp (ex st) [NT (ex st); TM t] -> rd (g ++ [TM t]) st (Pre [NT (ex st); TM t])
  | r_mid g l A st t : rd g ((l, A) :: st) Have -> isp (ex st) (l ++ [NT A; TM t]) -> rd (g ++ [TM t]) st (Pre (l ++ [NT A; TM t])).
  Definition ends_tok (l : list sym) : Prop := exists l' t, l = l' ++ [TM t].
  Lemma ends_tok_not l : ends_tok l -> ~ after_operand l /\ l <> [].
  Proof. intros (l' & t & ->). split; [intros (l1 & A & E); apply snoc_inj in E as [_ E]; discriminate|destruct l'; discriminate]. Qed.
  Lemma ends_mid l A t : ends_tok (l ++ [NT A; TM t]).
  Proof. exists (l ++ [NT A]), t. apply two_app. Qed.
  Lemma ends_op A t : ends_tok [NT A; TM t].
  Proof. exists [NT A], t. reflexivity. Qed.
  Fixpoint flat (st : list frame) : list sym := match st with [] => [] | (l, _) :: st' => flat st' ++ l end.
  Definition top (st : list frame) (m : mode) : list sym := match m with Need => [] | Have => [NT (ex st)] | Pre l => l end.
  Lemma rd_facts g st m : rd g st m -> g = flat st ++ top st m /\ (forall l A, In (l, A) st -> ends_tok l) /\
    (forall s1 s2, st = s1 ++ s2 -> rd (flat s2) s2 Need) /\
    match m with Need => g = [] /\ st = [] \/ ends_tok g | Have => after_operand g | Pre l => ends_tok g /\ ends_tok l end.
  Proof.
    intros Hr. induction Hr as [|g st t Hr IH Hp|g st Hr IH|g st l A Hr IH Hp|g st l t Hr IH Hp|g st t Hr IH Hp|g l A st t Hr IH Hp].
    - split; [auto|]. split; [intros l A []|]. split; [|left; auto]. intros s1 s2 E. destruct s1; [|discriminate]. cbn in E. subst s2. constructor.
    - destruct IH as (E & I1 & I2 & I3). cbn [top] in *. rewrite app_nil_r in E. subst g. split; [auto|]. split; [auto|]. split; [auto|]. split; [eexists _, t; eauto|]. exists [], t; auto.
    - destruct IH as (E & I1 & I2 & I3). cbn [top] in *. rewrite app_nil_r in E. subst g. split; [auto|]. split; [auto|]. split; [auto|]. eexists _, (ex st); eauto.
    - destruct IH as (E & I1 & I2 & I3 & I4). cbn [top] in *. split; [cbn; rewrite app_nil_r; auto|]. split; [intros l' A' [E'|Hi]; [injection E' as <- <-; auto|eauto]|]. split; [|right; auto].
      intros [|f s1] s2 E'; cbn in E'; [subst s2; cbn; rewrite <- E; econstructor; eauto|]. injection E' as <- E'. eauto.
    - destruct IH as (E & I1 & I2 & I3 & I4). cbn [top] in *. split; [rewrite E, app_assoc; auto|]. split; [auto|]. split; [auto|]. split; [exists g, t; auto|]. exists l, t; auto.
    - destruct IH as (E & I1 & I2 & I3). cbn [top] in *. split; [rewrite E, <- app_assoc; auto|]. split; [auto|]. split; [auto|]. split; [exists g, t; auto|]. apply ends_op.
    - destruct IH as (E & I1 & I2 & I3). cbn [top ex flat] in *. split; [rewrite E, <- !app_assoc; auto|]. split; [intros l' A' Hi; eapply I1; right; eauto|].
      split; [intros s1 s2 E'; apply (I2 ((l, A) :: s1) s2); cbn; congruence|]. split; [exists g, t; auto|]. apply ends_mid.
  Qed.

  (** the meaning is unique *)
  Lemma occ_tok A t : isp A [TM t] -> occurs_behind rules A [] t.
  Proof. auto. Qed.
  Lemma not_after_nil : ~ after_operand [].
  Proof. intros (l & A & E). destruct l; discriminate. Qed.
  (** behind an operand *)
  Definition uniqH (g : list sym) : Prop := forall st st', rd g st Have -> rd g st' Have -> st = st'.
  (** elsewhere: the beginning, or what has been read of a construct *)
  Definition norm (st : list frame) (m : mode) : list frame * mode :=
    match m with Need => match st with [] => ([], Need) | (l, _) :: st' => (st', Pre l) end | m => (st, m) end.
  Definition same_cfg (c c' : list frame * mode) : Prop := norm (fst c) (snd c) = norm (fst c') (snd c').
  Definition uniqT (g : list sym) : Prop := forall st m st' m', rd g st m -> rd g st' m' -> m <> Have -> m' <> Have -> same_cfg (st, m) (st', m').
  Lemma rd_inv_tok g t st m : rd (g ++ [TM t]) st m -> exists st0 l,
    same_cfg (st, m) (st0, Pre l) /\ (m = Have -> False) /\
    ((rd g st0 Need /\ l = [TM t] /\ isp (ex st0) [TM t]) \/
     (exists l0, rd g st0 (Pre l0) /\ l = l0 ++ [TM t] /\ isp (ex st0) (l0 ++ [TM t])) \/
     (rd g st0 Have /\ l = [NT (ex st0); TM t] /\ isp (ex st0) [NT (ex st0); TM t]) \/
     (exists l0 A, rd g ((l0, A) :: st0) Have /\ l = l0 ++ [NT A; TM t] /\ isp (ex st0) (l0 ++ [NT A; TM t]))).
  Proof.
    intros Hr. remember (g ++ [TM t]) as g1 eqn:Eg. revert g t Eg. induction Hr as [|g st t Hr IH Hp|g st Hr IH|g st l A Hr IH Hp|g st l t Hr IH Hp|g st t Hr IH Hp|g l A st t Hr IH Hp]; intros g1 t1 Eg.
    - destruct g1; discriminate.
    - apply snoc_inj in Eg as [-> Et]. injection Et as ->. exists st, [TM t1]. split; [reflexivity|]. split; [discriminate|]. auto.
    - apply snoc_inj in Eg as [_ Et]. discriminate.
    - destruct (IH g1 t1 Eg) as (st0 & l0 & E1 & _ & H1). exists st0, l0. split; [exact E1|]. split; [discriminate|]. auto.
    - apply snoc_inj in Eg as [-> Et]. injection Et as ->. exists st, (l ++ [TM t1]). split; [reflexivity|]. split; [discriminate|]. right. left. exists l. auto.
    - apply snoc_inj in Eg as [-> Et]. injection Et as ->. eexists st, _. split; [reflexivity|]. split; [discriminate|]. right. right. left. auto.
    - apply snoc_inj in Eg as [-> Et]. injection Et as ->. eexists st, _. split; [reflexivity|]. split; [discriminate|]. right. right. right. eauto.
  Qed.
  Lemma rd_nil st m : rd [] st m -> st = [] /\ m = Need.
  Proof.
    intros Hr. destruct (rd_facts _ _ _ Hr) as (_ & _ & _ & H). destruct m as [| |l].
    - destruct H as [[_ ->]|(l' & t & E)]; [auto|destruct l'; discriminate].
    - destruct (not_after_nil H).
    - destruct H as [(l' & t & E) _]. destruct l'; discriminate.
  Qed.
  Lemma rd_inv_nt g A st m : rd (g ++ [NT A]) st m -> m = Have /\ rd g st Need /\ A = ex st.
  Proof.
    intros Hr. destruct (rd_facts _ _ _ Hr) as (_ & _ & _ & H). destruct m as [| |l].
    - exfalso. destruct H as [[E _]|(l' & t & E)]; [destruct g; discriminate|apply snoc_inj in E as [_ E]; discriminate].
    - split; auto. inversion Hr; subst. match goal with H : _ ++ [_] = _ ++ [_] |- _ => apply snoc_inj in H as [-> E]; injection E as E end. auto.
    - exfalso. destruct H as [(l' & t & E) _]. apply snoc_inj in E as [_ E]; discriminate.
  Qed.
  Lemma have_not_other g st st' m : rd g st Have -> rd g st' m -> m = Have.
  Proof.
    intros H1 H2. destruct (rd_facts _ _ _ H1) as (_ & _ & _ & l & A & ->). apply rd_inv_nt in H2. tauto.
  Qed.
  Lemma rd_unique g : uniqH g /\ uniqT g.
  Proof.
    induction g as [|X g IH] using rev_ind.
    - split; intros st; [intros st' H1; apply rd_nil in H1 as [_ E]; discriminate|]. intros m st' m' H1 H2 _ _. apply rd_nil in H1 as [-> ->]. apply rd_nil in H2 as [-> ->]. reflexivity.
    - destruct IH as [IH1 IH2]. destruct X as [A|t]; split.
      + intros st st' H1 H2. apply rd_inv_nt in H1 as (_ & H1 & E1). apply rd_inv_nt in H2 as (_ & H2 & E2).
        pose proof (IH2 _ _ _ _ H1 H2 ltac:(discriminate) ltac:(discriminate)) as H. unfold same_cfg in H.
        destruct st as [|[l B] st], st' as [|[l' B'] st']; try discriminate; auto. cbn in *. congruence.
      + intros st m st' m' H1 H2 N1. apply rd_inv_nt in H1 as [E _]. contradiction.
      + intros st st' H1. apply rd_inv_tok in H1 as (_ & _ & _ & F & _). destruct (F eq_refl).
      + intros st m st' m' H1 H2 N1 N2. apply rd_inv_tok in H1 as (s1 & l1 & E1 & _ & C1). apply rd_inv_tok in H2 as (s2 & l2 & E2 & _ & C2).
        unfold same_cfg in *. rewrite E1, E2. clear E1 E2 N1 N2. cbn [norm fst snd].
        assert (Hn : forall l0 st0, rd g st0 (Pre l0) -> ~ after_operand l0 /\ l0 <> []) by (intros l0 st0 H; destruct (rd_facts _ _ _ H) as (_ & _ & _ & _ & H'); apply ends_tok_not; auto).
        assert (Hf : forall l0 B st0, rd g ((l0, B) :: st0) Have -> ends_tok l0) by (intros l0 B st0 H; destruct (rd_facts _ _ _ H) as (_ & H' & _); eapply H'; left; eauto).
        assert (Hmid : forall A l0 B t0, isp A (l0 ++ [NT B; TM t0]) -> occurs_behind rules A (l0 ++ [NT B]) t0) by (intros A l0 B t0 H; unfold occurs_behind; rewrite <- two_app; exact H).
        destruct C1 as [(R1 & -> & P1)|[(a & R1 & -> & P1)|[(R1 & -> & P1)|(a & A & R1 & -> & P1)]]], C2 as [(R2 & -> & P2)|[(b & R2 & -> & P2)|[(R2 & -> & P2)|(b & B & R2 & -> & P2)]]];
          try (exfalso; pose proof (have_not_other _ _ _ _ R1 R2) as F; discriminate); try (exfalso; pose proof (have_not_other _ _ _ _ R2 R1) as F; discriminate).
        * destruct (ta_operand _ TA _ [] _ [] t P1 P2 not_after_nil not_after_nil) as [Ee _]. pose proof (IH2 _ _ _ _ R1 R2 ltac:(discriminate) ltac:(discriminate)) as H. unfold same_cfg in H.
          destruct s1 as [|[l B] s1], s2 as [|[l' B'] s2]; try discriminate; auto. cbn in *. congruence.
        * exfalso. destruct (Hn _ _ R2) as [N1 N2]. destruct (ta_operand _ TA _ [] _ b t P1 P2 not_after_nil N1) as [_ Ee]. congruence.
        * exfalso. destruct (Hn _ _ R1) as [N1 N2]. destruct (ta_operand _ TA _ a _ [] t P1 P2 N1 not_after_nil) as [_ Ee]. congruence.
        * pose proof (IH2 _ _ _ _ R1 R2 ltac:(discriminate) ltac:(discriminate)) as H. unfold same_cfg in H. injection H as -> ->. reflexivity.
        * pose proof (IH1 _ _ R1 R2) as ->. reflexivity.
        * exfalso. pose proof (Hf _ _ _ R2) as N. apply ends_tok_not in N as [_ N]. destruct (ta_operator _ TA _ [] _ _ b B t P1 (Hmid _ _ _ _ P2) (or_introl eq_refl)) as (_ & Ee & _). congruence.
        * exfalso. pose proof (Hf _ _ _ R1) as N. apply ends_tok_not in N as [_ N]. destruct (ta_operator _ TA _ [] _ _ a A t P2 (Hmid _ _ _ _ P1) (or_introl eq_refl)) as (_ & Ee & _). congruence.
        * pose proof (IH1 _ _ R1 R2) as H. injection H as -> -> ->. reflexivity.
  Qed.

  (** ** Valid items *)
  Lemma aug_lt k r : nth_error G k = Some r -> k < sr /\ In r rules \/ k = sr /\ r = mk_rule ss [NT start].
  Proof.
    unfold augment. intros H. destruct (Nat.lt_ge_cases k sr) as [Hk|Hk].
    - rewrite nth_error_app1 in H by auto. left. split; auto. eapply nth_error_In; eauto.
    - rewrite nth_error_app2 in H by auto. destruct (k - sr) as [|n] eqn:En; [|destruct n; discriminate]. right. cbn in H. injection H as <-. split; auto. lia.
  Qed.
  Lemma nth_G k r : nth_error rules k = Some r -> nth_error G k = Some r.
  Proof. intros H. unfold augment. rewrite nth_error_app1; auto. apply nth_error_Some. congruence. Qed.
  Lemma sr_G : nth_error G sr = Some (mk_rule ss [NT start]).
  Proof. unfold augment. rewrite nth_error_app2, Nat.sub_diag by auto. reflexivity. Qed.
  Definition reads (g : list sym) (r : rule) (p : nat) : Prop := exists st, r_lhs r = ex st /\
    exists l0 l1, r_rhs r = l0 ++ l1 /\ length l0 = p /\
    ((l0 = [] /\ rd g st Need) \/ (ends_tok l0 /\ rd g st (Pre l0)) \/ (l0 = [NT (ex st)] /\ rd g st Have) \/ (exists l A, l0 = l ++ [NT A] /\ l <> [] /\ rd g ((l, A) :: st) Have)).
  Lemma valid_reads g it : valid G sr g it -> forall r, nth_error G (i_rule it) = Some r ->
    (i_rule it = sr -> (i_pos it = 0 /\ g = []) \/ (i_pos it = 1 /\ g = [NT start])) /\ (i_rule it <> sr -> reads g r (i_pos it)).
  Proof.
    induction 1 as [|g k p la r0 X Hv IH Hr0 HX|g k p la r0 A k' r' t Hv IH Hr0 HA Hr' El Hf]; intros r Hr; cbn [i_rule i_pos] in *.
    - split; [auto|]. intros F. destruct (F eq_refl).
    - assert (r0 = r) by congruence. subst r0. specialize (IH r Hr) as [I1 I2]. split.
      + intros Ek. destruct (aug_lt _ _ Hr) as [[Hk _]|[_ ->]]; [lia|]. cbn in HX. destruct (I1 Ek) as [[-> ->]|[-> ->]]; [|discriminate]. cbn in HX. injection HX as <-. auto.
      + intros Hk. destruct (aug_lt _ _ Hr) as [[_ Hin]|[F _]]; [|contradiction]. destruct (I2 Hk) as (st & Es & l0 & l1 & E & Hp & H). rewrite E, <- Hp in HX. rewrite nth_error_app2, Nat.sub_diag in HX by lia. destruct l1 as [|X' l1]; [discriminate|].
        cbn in HX. injection HX as ->. assert (Hi : isp (ex st) (l0 ++ [X])) by (exists r, l1; rewrite <- app_assoc; auto).
        exists st. split; auto. exists (l0 ++ [X]), l1. rewrite <- app_assoc. split; auto. split; [rewrite app_length; cbn; lia|].
        destruct H as [[-> H]|[[He H]|[[-> H]|(l & B & -> & Hl & H)]]].
        * destruct X as [B|u]; cbn [app] in *.
          -- assert (EB : B = ex st) by (apply (isp_left _ _ []); auto). subst B. right. right. left. split; auto. constructor; auto.
          -- right. left. split; [exists [], u; auto|]. constructor; auto.
        * destruct X as [B|u].
          -- right. right. right. exists l0, B. split; auto. split; [apply ends_tok_not in He; tauto|]. change B with (ex ((l0, B) :: st)) at 1. apply r_nt. apply r_open; auto.
          -- right. left. split; [exists l0, u; auto|]. constructor; auto.
        * destruct X as [B|u]; [destruct (isp_next _ [] _ _ _ Hi)|]. right. left. split; [apply ends_op|]. apply r_op; auto.
        * destruct X as [C|u]; [rewrite <- app_assoc in Hi; destruct (isp_next _ _ _ _ _ Hi)|]. rewrite <- two_app in *. right. left. split; [apply ends_mid|]. eapply r_mid; eauto.
    - assert (r' = r) by congruence. subst r'. specialize (IH r0 Hr0) as [I1 I2]. destruct (aug_lt _ _ Hr) as [[Hk Hin]|[-> ->]].
      + split; [lia|]. intros _. destruct (aug_lt _ _ Hr0) as [[Hk0 Hin0]|[-> ->]].
        * destruct (I2 ltac:(lia)) as (st & Es & l0 & l1 & E & Hp & H). rewrite E, <- Hp in HA. rewrite nth_error_app2, Nat.sub_diag in HA by lia. destruct l1 as [|X' l1]; [discriminate|]. cbn in HA. injection HA as ->.
          assert (Hi : isp (ex st) (l0 ++ [NT A])) by (exists r0, l1; rewrite <- app_assoc; auto).
          destruct H as [[-> H]|[[He H]|[[-> H]|(l & B & -> & Hl & H)]]].
          -- cbn in Hi. assert (EA : A = ex st) by (apply (isp_left _ _ []); auto). exists st. split; [congruence|]. exists [], (r_rhs r). auto.
          -- exists ((l0, A) :: st). split; [auto|]. exists [], (r_rhs r). split; auto. split; auto. left. split; auto. apply r_open; auto.
          -- destruct (isp_next _ [] _ _ _ Hi).
          -- rewrite <- app_assoc in Hi. destruct (isp_next _ _ _ _ _ Hi).
        * cbn in HA. destruct (I1 eq_refl) as [[-> ->]|[-> ->]]; [|discriminate]. cbn in HA. injection HA as <-. exists []. split; auto. exists [], (r_rhs r). split; auto. split; auto. left. split; auto. constructor.
      + exfalso. cbn in El. subst A. apply Hss. destruct (aug_lt _ _ Hr0) as [[_ Hin0]|[-> ->]].
        * apply nonterminals_spec. exists r0. split; auto. right. apply nth_error_In in HA. auto.
        * cbn in HA. destruct p as [|[|p]]; cbn in HA; try discriminate. injection HA as <-. exact Hst.
  Qed.

  Lemma isp_nth A l : isp A l -> exists k r l', nth_error rules k = Some r /\ r_lhs r = A /\ r_rhs r = l ++ l'.
  Proof. intros (r & l' & Hr & H). apply In_nth_error in Hr as [k Hk]. exists k, r, l'. auto. Qed.
  Lemma isr_nth A l : isr A l -> exists k, nth_error rules k = Some (mk_rule A l).
  Proof. intros Hr. apply In_nth_error in Hr. exact Hr. Qed.
  Lemma firsts_here t l : firsts G (TM t :: l) t.
  Proof. exists l. constructor. Qed.
  Lemma goto_app g k l X l' la r : valid G sr g (mk_item k (length l) la) -> nth_error rules k = Some r -> r_rhs r = l ++ X :: l' -> valid G sr (g ++ [X]) (mk_item k (length (l ++ [X])) la).
  Proof.
    intros Hv Hk E. rewrite app_length, Nat.add_1_r. eapply valid_goto; [exact Hv|apply nth_G; exact Hk|]. rewrite E. apply nth_len_app.
  Qed.
  Lemma closure_app g k l A l' la r k' r' t : valid G sr g (mk_item k (length l) la) -> nth_error rules k = Some r -> r_rhs r = l ++ NT A :: l' ->
    nth_error rules k' = Some r' -> r_lhs r' = A -> firsts G (l' ++ [TM la]) t -> valid G sr g (mk_item k' 0 t).
  Proof.
    intros Hv Hk E Hk' El Hf. eapply valid_closure; [exact Hv|apply nth_G; exact Hk| |apply nth_G; exact Hk'|exact El|]; rewrite E; [apply nth_len_app|rewrite skipn_len_app; exact Hf].
  Qed.
  (** what can follow an operand *)
  Inductive fol : list frame -> term -> Prop :=
  | f_end : fol [] TEoi
  | f_op st t : isp (ex st) [NT (ex st); TM t] -> fol st t
  | f_mid l A st t : isp (ex st) (l ++ [NT A; TM t]) -> fol ((l, A) :: st) t
  | f_close l A st t : isr (ex st) (l ++ [NT A]) -> fol st t -> fol ((l, A) :: st) t.
  Definition next_of (z : list term) : term := match z with [] => TEoi | t :: _ => t end.
  Lemma acc_fol st m z : acc st m z -> m = Have -> fol st (next_of z).
  Proof. induction 1; intros Em; try discriminate; cbn [next_of] in *; [apply f_op|apply f_mid|apply f_close|apply f_end]; auto. Qed.
  Lemma rd_open_inv g l A st : rd g ((l, A) :: st) Need -> rd g st (Pre l) /\ isp (ex st) (l ++ [NT A]).
  Proof. intros H. inversion H; subst. auto. Qed.
  Lemma rd_fol g st m : rd g st m -> exists t, fol st t.
  Proof.
    intros Hr. destruct (rd_facts _ _ _ Hr) as (_ & _ & H & _). specialize (H [] st eq_refl). clear Hr. revert H. generalize (flat st) as g1. clear g m.
    induction st as [|[l A] st IH]; intros g H; [eexists; apply f_end|]. apply rd_open_inv in H as [H (r & l' & Hr & El & E)].
    destruct (rd_facts _ _ _ H) as (_ & _ & H' & _). specialize (H' [] st eq_refl).
    rewrite <- app_assoc in E. destruct l' as [|[B|t] l'].
    - destruct (IH _ H') as [t Ht]. exists t. apply f_close; auto. unfold is_rule. rewrite <- El. cbn in E. rewrite <- E. destruct r. auto.
    - destruct (ta_next _ TA r l A B l' Hr E).
    - exists t. apply f_mid. exists r, l'. rewrite E, <- app_assoc. auto.
  Qed.
  (** the items for the constructs that are open *)
  Definition items (g : list sym) (st : list frame) (m : mode) : Prop :=
    match m with
    | Need => (forall la k r, fol st la -> nth_error rules k = Some r -> r_lhs r = ex st -> valid G sr g (mk_item k 0 la)) /\
        forall l A st0 la k r l', st = (l, A) :: st0 -> fol st0 la -> nth_error rules k = Some r -> r_lhs r = ex st0 -> r_rhs r = l ++ NT A :: l' -> valid G sr g (mk_item k (length l) la)
    | Pre l => forall la k r l', fol st la -> nth_error rules k = Some r -> r_lhs r = ex st -> r_rhs r = l ++ l' -> valid G sr g (mk_item k (length l) la)
    | Have => (forall la k r l', fol st la -> nth_error rules k = Some r -> r_lhs r = ex st -> r_rhs r = NT (ex st) :: l' -> valid G sr g (mk_item k 1 la)) /\
        forall l A st0 la k r l', st = (l, A) :: st0 -> fol st0 la -> nth_error rules k = Some r -> r_lhs r = ex st0 -> r_rhs r = l ++ NT A :: l' -> valid G sr g (mk_item k (length (l ++ [NT A])) la)
    end.
  (** once the items are there for the lookaheads from outside, they are there for operators *)
  Lemma with_ops g st la0 : (forall k r, nth_error rules k = Some r -> r_lhs r = ex st -> valid G sr g (mk_item k 0 la0)) ->
    forall t k r, isp (ex st) [NT (ex st); TM t] -> nth_error rules k = Some r -> r_lhs r = ex st -> valid G sr g (mk_item k 0 t).
  Proof.
    intros H t k r Hp Hk El. apply isp_nth in Hp as (k0 & r0 & l' & Hk0 & El0 & E0).
    apply (closure_app g k0 [] (ex st) (TM t :: l') la0 r0 k r t); [exact (H k0 r0 Hk0 El0)|auto|exact E0|auto|auto|apply firsts_here].
  Qed.
  Lemma rd_items g st m : rd g st m -> items g st m.
  Proof.
    intros Hr. induction Hr as [|g st t Hr IH Hp|g st Hr IH|g st l A Hr IH Hp|g st l t Hr IH Hp|g st t Hr IH Hp|g l A st t Hr IH Hp]; cbn [items] in *.
    - split; [|discriminate].
      assert (H0 : forall k r, nth_error rules k = Some r -> r_lhs r = ex [] -> valid G sr [] (mk_item k 0 TEoi)).
      { intros k r Hk El. eapply valid_closure; [apply valid_start|apply sr_G|reflexivity|apply nth_G; exact Hk|exact El|]. cbn. apply firsts_here. }
      intros la k r Hf Hk El. inversion Hf; subst; [apply H0 with r; auto|eapply with_ops; eauto].
    - intros la k r l' Hf Hk El E. apply (goto_app g k [] (TM t) l' la r); auto. apply (proj1 IH la k r); auto.
    - split.
      + intros la k r l' Hf Hk El E. apply (goto_app g k [] (NT (ex st)) l' la r); auto. apply (proj1 IH la k r); auto.
      + intros l A st0 la k r l' Es Hf Hk El E. subst st. cbn [ex]. eapply goto_app; eauto. apply (proj2 IH l A st0 la k r l'); auto.
    - split.
      + assert (Hmid : forall t k r, isp (ex st) (l ++ [NT A; TM t]) -> nth_error rules k = Some r -> r_lhs r = A -> valid G sr g (mk_item k 0 t)).
        { intros t k r Hpt Hk El. apply isp_nth in Hpt as (k0 & r0 & l' & Hk0 & El0 & E0). destruct (rd_fol _ _ _ Hr) as [la0 Hla0]. rewrite <- app_assoc in E0. cbn [app] in E0.
          apply (closure_app g k0 l A (TM t :: l') la0 r0 k r t); auto; [|apply firsts_here]. apply (IH la0 k0 r0 (NT A :: TM t :: l')); auto. }
        assert (Hclose : forall t k r, isr (ex st) (l ++ [NT A]) -> fol st t -> nth_error rules k = Some r -> r_lhs r = A -> valid G sr g (mk_item k 0 t)).
        { intros t k r Hpt Hft Hk El. apply isr_nth in Hpt as [k0 Hk0]. apply (closure_app g k0 l A [] t (mk_rule (ex st) (l ++ [NT A])) k r t); auto; [|apply firsts_here]. eapply IH; eauto. reflexivity. }
        intros la k r Hf Hk El. cbn [ex] in El. inversion Hf as [|st1 t1 H1|l1 A1 st1 t1 H1|l1 A1 st1 t1 H1 H2]; subst; [|eapply Hmid; eauto|eapply Hclose; eauto].
        cbn [ex] in H1. pose proof Hp as (r0 & l' & Hr0 & El0 & E0). rewrite <- app_assoc in E0. destruct l' as [|[B|t] l'].
        * destruct (rd_fol _ _ _ Hr) as [la0 Hla0]. apply (with_ops g ((l, r_lhs r) :: st) la0) with (r := r); auto. intros k1 r1 Hk1 El1. apply Hclose with r1; auto. unfold is_rule. rewrite <- El0. cbn in E0. rewrite <- E0. destruct r0. auto.
        * destruct (ta_next _ TA r0 l _ B l' Hr0 E0).
        * apply (with_ops g ((l, r_lhs r) :: st) t) with (r := r); auto. intros k1 r1 Hk1 El1. apply Hmid with r1; auto. exists r0, l'. rewrite E0, <- app_assoc. auto.
      + intros l1 A1 st0 la k r l' Es Hf Hk El E. injection Es as -> -> ->. eapply IH; eauto.
    - intros la k r l' Hf Hk El E. rewrite <- app_assoc in E. eapply goto_app; eauto.
    - intros la k r l' Hf Hk El E. apply (goto_app g k [NT (ex st)] (TM t) l' la r); auto. eapply (proj1 IH); eauto.
    - intros la k r l' Hf Hk El E. rewrite two_app in *. rewrite <- app_assoc in E. eapply goto_app; eauto. eapply (proj2 IH); eauto. rewrite E, <- app_assoc. reflexivity.
  Qed.

  (** ** The parser *)
  Notation shifts g t := (can_shift rules start ss g t).
  Lemma sh_need g st t : rd g st Need -> isp (ex st) [TM t] -> shifts g t.
  Proof.
    intros Hr Hp. destruct (rd_fol _ _ _ Hr) as [la Hla]. apply isp_nth in Hp as (k & r & l' & Hk & El & E). exists k, 0, la, r. split; [apply (proj1 (rd_items _ _ _ Hr) la k r); auto|]. split; [apply nth_G; auto|]. rewrite E. reflexivity.
  Qed.
  Lemma sh_pre g st l t : rd g st (Pre l) -> isp (ex st) (l ++ [TM t]) -> shifts g t.
  Proof.
    intros Hr Hp. destruct (rd_fol _ _ _ Hr) as [la Hla]. apply isp_nth in Hp as (k & r & l' & Hk & El & E). rewrite <- app_assoc in E. exists k, (length l), la, r. split; [apply (rd_items _ _ _ Hr la k r (TM t :: l')); auto|]. split; [apply nth_G; auto|]. rewrite E. apply nth_len_app.
  Qed.
  Lemma sh_op g st t : rd g st Have -> isp (ex st) [NT (ex st); TM t] -> shifts g t.
  Proof.
    intros Hr Hp. destruct (rd_fol _ _ _ Hr) as [la Hla]. apply isp_nth in Hp as (k & r & l' & Hk & El & E). exists k, 1, la, r. split; [apply (proj1 (rd_items _ _ _ Hr) la k r (TM t :: l')); auto|]. split; [apply nth_G; auto|]. rewrite E. reflexivity.
  Qed.
  Lemma sh_mid g l A st t : rd g ((l, A) :: st) Have -> isp (ex st) (l ++ [NT A; TM t]) -> shifts g t.
  Proof.
    intros Hr Hp. destruct (rd_facts _ _ _ Hr) as (_ & _ & H & _). destruct (rd_fol _ _ _ (H [(l, A)] st eq_refl)) as [la Hla].
    apply isp_nth in Hp as (k & r & l' & Hk & El & E). rewrite <- app_assoc in E. cbn [app] in E. exists k, (length (l ++ [NT A])), la, r. split; [apply (proj2 (rd_items _ _ _ Hr) l A st la k r (TM t :: l')); auto|]. split; [apply nth_G; auto|].
    rewrite E. change (l ++ NT A :: TM t :: l') with (l ++ [NT A] ++ TM t :: l'). rewrite app_assoc. apply nth_len_app.
  Qed.
  (** what the machine for the grammar does next *)
  Lemma progress g st m z : rd g st m -> acc st m z ->
    (z <> [] /\ shifts g (next_of z)) \/ (m = Have /\ st = [] /\ z = []) \/
    (exists l, m = Pre l /\ isr (ex st) l /\ acc st Have z) \/
    (exists l A st0, m = Have /\ st = (l, A) :: st0 /\ isr (ex st0) (l ++ [NT A]) /\ acc st0 Have z).
  Proof.
    intros Hr Ha. inversion Ha as [st1 t z1 Hp H|st1 l t z1 Hp H|st1 l A z1 Hp H|st1 l z1 Hp H|st1 t z1 Hp H|l A st1 t z1 Hp H|l A st1 z1 Hp H|]; subst.
    - left. split; [discriminate|]. eapply sh_need; eauto.
    - left. split; [discriminate|]. eapply sh_pre; eauto.
    - left. inversion H as [st2 t z2 Hp2 H2| | | | | | |]; subst. split; [discriminate|]. eapply sh_need; [eapply r_open; eauto|auto].
    - right. right. left. exists l. auto.
    - left. split; [discriminate|]. eapply sh_op; eauto.
    - left. split; [discriminate|]. eapply sh_mid; eauto.
    - right. right. right. exists l, A, st1. auto.
    - right. left. auto.
  Qed.
  Lemma red_pre g st l la k : rd g st (Pre l) -> fol st la -> nth_error rules k = Some (mk_rule (ex st) l) -> can_reduce rules start ss g la k.
  Proof.
    intros Hr Hf Hk. split; [apply nth_error_Some; congruence|]. eexists. split; [apply nth_G; exact Hk|]. cbn [r_rhs]. apply (rd_items _ _ _ Hr la k _ [] Hf Hk); auto. cbn. rewrite app_nil_r. reflexivity.
  Qed.
  Lemma red_close g l A st la k : rd g ((l, A) :: st) Have -> fol st la -> nth_error rules k = Some (mk_rule (ex st) (l ++ [NT A])) -> can_reduce rules start ss g la k.
  Proof.
    intros Hr Hf Hk. split; [apply nth_error_Some; congruence|]. eexists. split; [apply nth_G; exact Hk|]. cbn [r_rhs]. apply (proj2 (rd_items _ _ _ Hr) l A st la k _ [] eq_refl Hf Hk); auto.
  Qed.
  Lemma never_stuck g st m z : rd g st m -> acc st m z -> ~ do_recover rules start ss g (next_of z).
  Proof.
    intros Hr Ha (D1 & D2 & D3). destruct (progress _ _ _ _ Hr Ha) as [[_ H]|[(-> & -> & ->)|[(l & -> & H1 & H2)|(l & A & st0 & -> & -> & H1 & H2)]]].
    - auto.
    - apply D2. split; auto. destruct (rd_facts _ _ _ Hr) as (E & _). cbn in E. subst g. eexists. split; [apply sr_G|]. cbn. apply (valid_goto G sr [] sr 0 TEoi (mk_rule ss [NT start]) (NT start)); [constructor|apply sr_G|reflexivity].
    - apply isr_nth in H1 as [k Hk]. apply (D3 k). eapply red_pre; eauto. eapply acc_fol; eauto.
    - apply isr_nth in H1 as [k Hk]. apply (D3 k). eapply red_close; eauto. eapply acc_fol; eauto.
  Qed.
  (** a rule that is complete is one that is open *)
  Lemma complete_reads g k t r : nth_error rules k = Some r -> complete G sr g k t -> exists st, r_lhs r = ex st /\
    ((ends_tok (r_rhs r) /\ rd g st (Pre (r_rhs r))) \/ exists l A, r_rhs r = l ++ [NT A] /\ l <> [] /\ rd g ((l, A) :: st) Have).
  Proof.
    intros Hk (r0 & Hr0 & Hv). rewrite (nth_G _ _ Hk) in Hr0. injection Hr0 as <-. pose proof (nth_error_In _ _ Hk) as Hin.
    destruct (valid_reads _ _ Hv r (nth_G _ _ Hk)) as [_ H]. destruct H as (st & Es & l0 & l1 & E & Hl & H); [cbn; assert (k < sr) by (apply nth_error_Some; congruence); lia|]. cbn [i_pos] in Hl.
    assert (l1 = []) by (rewrite E in Hl; rewrite app_length in Hl; destruct l1; [auto|cbn in Hl; lia]). subst l1. rewrite app_nil_r in E. subst l0.
    exists st. split; auto. destruct H as [[F _]|[H|[[F _]|H]]]; auto; [destruct (ta_some _ TA r Hin F)|destruct (ta_single _ TA r _ Hin F)].
  Qed.
  Lemma rd_after st : (exists g m s1, rd g (s1 ++ st) m) -> rd (flat st ++ [NT (ex st)]) st Have.
  Proof. intros (g & m & s1 & H). destruct (rd_facts _ _ _ H) as (_ & _ & H' & _). apply r_nt. eapply H'; eauto. Qed.
  Lemma reduce_keeps g st m z k r : rd g st m -> acc st m z -> ~ shifts g (next_of z) -> nth_error rules k = Some r -> complete G sr g k (next_of z) ->
    exists g0 st', g = g0 ++ r_rhs r /\ rd (g0 ++ [NT (r_lhs r)]) st' Have /\ acc st' Have z.
  Proof.
    intros Hr Ha Hns Hk Hc. destruct (complete_reads _ _ _ _ Hk Hc) as (st' & El & Hcase).
    destruct (progress _ _ _ _ Hr Ha) as [[_ H]|[(-> & -> & ->)|[(l & -> & H1 & H2)|(l & A & st0 & -> & -> & H1 & H2)]]].
    - contradiction.
    - exfalso. destruct Hcase as [[_ H]|(l & A & _ & _ & H)].
      + pose proof (have_not_other _ _ _ _ Hr H). discriminate.
      + pose proof (proj1 (rd_unique g) _ _ Hr H). discriminate.
    - destruct Hcase as [[_ H]|(l' & A' & _ & _ & H)]; [|exfalso; pose proof (have_not_other _ _ _ _ H Hr); discriminate].
      pose proof (proj2 (rd_unique g) _ _ _ _ Hr H ltac:(discriminate) ltac:(discriminate)) as E. cbn in E. injection E as E1 E2.
      exists (flat st), st. destruct (rd_facts _ _ _ Hr) as (Eg & _). cbn [top] in Eg. split; [congruence|]. split; auto. rewrite El, <- E1. apply rd_after. exists g, (Pre l), []. exact Hr.
    - destruct Hcase as [[_ H]|(l' & A' & E' & _ & H)]; [exfalso; pose proof (have_not_other _ _ _ _ Hr H); discriminate|].
      pose proof (proj1 (rd_unique g) _ _ Hr H) as E. injection E as -> -> ->.
      exists (flat st'), st'. destruct (rd_facts _ _ _ Hr) as (Eg & _). cbn [top flat ex] in Eg. split; [rewrite Eg, E', app_assoc; auto|]. split; auto. rewrite El. apply rd_after. exists g, Have, [(l', A')]. exact Hr.
  Qed.
  Lemma shift_keeps g st m t z : rd g st m -> acc st m (t :: z) -> shifts g t -> exists st' m', rd (g ++ [TM t]) st' m' /\ acc st' m' z.
  Proof.
    intros Hr Ha (k & p & la & r & Hv & Hk & Ht).
    assert (Hrd : reads g r p /\ In r rules).
    { destruct (valid_reads _ _ Hv r Hk) as [_ H]. cbn [i_rule i_pos] in H. destruct (aug_lt _ _ Hk) as [[Hlt Hin]|[-> ->]]; [split; [apply H; lia|auto]|]. cbn in Ht. destruct p as [|[|p]]; discriminate. }
    destruct Hrd as [(st' & Es & l0 & l1 & E & Hl & Hcase) Hin]. rewrite E, <- Hl in Ht. rewrite nth_error_app2, Nat.sub_diag in Ht by lia. destruct l1 as [|X l1]; [discriminate|]. cbn in Ht. injection Ht as ->.
    assert (Hp : occurs_behind rules (ex st') l0 t) by (exists r, l1; rewrite <- app_assoc; auto).
    destruct m as [| |l].
    - inversion Ha; subst. eexists st, _. split; [apply r_tok; eauto|auto].
    - (* behind an operand *)
      assert (Hg := greedy _ _ _ Ha eq_refl t z eq_refl).
      assert (Hmid : forall A l B t0, isp A (l ++ [NT B; TM t0]) -> occurs_behind rules A (l ++ [NT B]) t0) by (intros A l B t0 H; unfold occurs_behind; rewrite <- two_app; exact H).
      destruct Hcase as [[-> H]|[[_ H]|[[-> H]|(l & A & -> & Hne & H)]]]; [pose proof (have_not_other _ _ _ _ Hr H); discriminate|pose proof (have_not_other _ _ _ _ Hr H); discriminate|..].
      + pose proof (proj1 (rd_unique g) _ _ Hr H) as <-. exists st, (Pre [NT (ex st); TM t]). split; [apply r_op; auto|].
        destruct Hg as [[_ Hg]|[(l & A & st0 & -> & H1 & H2)|(l & A & st0 & E1 & H1 & ro & s2 & E2 & H2 & [[H3 H4]|(l2 & A2 & s3 & E3 & H3 & H4)])]]; auto.
        * destruct (ta_operator _ TA _ [] _ _ l A t Hp (Hmid _ _ _ _ H1) (or_introl eq_refl)) as (_ & F & _). exfalso. subst l. destruct (rd_facts _ _ _ Hr) as (_ & F & _). destruct (ends_tok_not [] (F [] A (or_introl eq_refl))) as [_ F']. auto.
        * destruct (ta_operator _ TA _ [] _ _ [] _ t Hp H3 (or_introl eq_refl)) as (Ee & _). rewrite Ee. subst st st0.
          apply (insert ((l, A) :: ro) s2) with (s1 := []) (st := s2); auto. apply cl_more; auto.
        * destruct (ta_operator _ TA _ [] _ _ l2 A2 t Hp (Hmid _ _ _ _ H3) (or_introl eq_refl)) as (_ & F & _). exfalso. subst l2. destruct (rd_facts _ _ _ Hr) as (_ & F & _). destruct (ends_tok_not [] (F [] A2 ltac:(rewrite E1, E2, E3; right; apply in_or_app; right; left; auto))) as [_ F']. auto.
      + pose proof (proj1 (rd_unique g) _ _ Hr H) as ->. exists st', (Pre (l ++ [NT A; TM t])). assert (Hp' : isp (ex st') (l ++ [NT A; TM t])) by (rewrite two_app; exact Hp). split; [eapply r_mid; eauto|].
        destruct Hg as [[Hg _]|[(l' & A' & st0 & E0 & H1 & H2)|(l' & A' & st0 & E1 & H1 & ro & s2 & E2 & H2 & H3)]].
        * destruct (ta_operator _ TA _ [] _ _ l A t Hg Hp (or_introl eq_refl)) as (_ & F & _). congruence.
        * injection E0 as <- <- <-. auto.
        * injection E1 as <- <- <-. destruct H3 as [[H3 H4]|(l2 & A2 & s3 & E3 & H3 & H4)].
          -- destruct (ta_operator _ TA _ [] _ _ l A t H3 Hp (or_introl eq_refl)) as (_ & F & _). congruence.
          -- destruct (ta_operator _ TA _ l A _ l2 A2 t Hp (Hmid _ _ _ _ H3) (or_intror H1)) as (Ee & <- & <-). subst s2. subst st'.
             change (ro ++ (l, A) :: s3) with (ro ++ [(l, A)] ++ s3) in *. rewrite app_assoc in *.
             apply (insert (ro ++ [(l, A)]) s3) with (s1 := []) (st := s3); auto. clear - H2 H1 Ee. rewrite Ee in H1. clear Ee. induction ro as [|[l1 A1] ro IH]; cbn in *; [apply cl_more; [exact H1|constructor]|].
             inversion H2; subst. apply cl_more; auto. rewrite <- app_assoc. auto.
    - (* inside a construct *)
      inversion Ha as [|st1 l1' t1 z1 Hp1 H1|st1 l1' A z1 Hp1 H1|st1 l1' z1 Hp1 H1| | | |]; subst.
      + eexists st, _. split; [apply r_more; eauto|auto].
      + inversion H1; subst. eexists _, _. split; [apply r_tok; [eapply r_open; eauto|eauto]|auto].
      + exfalso. destruct (rd_facts _ _ _ Hr) as (_ & _ & _ & _ & He). apply ends_tok_not in He as [He He'].
        assert (Hocc : exists A' l', occurs_behind rules A' l' t /\ after_operand l').
        { clear - H1. remember Have as m eqn:Em. remember (t :: z) as z0 eqn:Ez. induction H1; try discriminate; auto.
          - injection Ez as -> _. exists (ex st), [NT (ex st)]. split; [auto|exists [], (ex st); auto].
          - injection Ez as -> _. exists (ex st), (l ++ [NT A]). split; [unfold occurs_behind; rewrite <- two_app; auto|exists l, A; auto]. }
        destruct (ta_optional _ TA _ _ t Hp1 He Hocc) as [N1 N2].
        destruct Hcase as [[-> H]|[[_ H]|[[-> H]|(l3 & A & -> & Hne & H)]]]; [| |pose proof (have_not_other _ _ _ _ H Hr); discriminate|pose proof (have_not_other _ _ _ _ H Hr); discriminate].
        * pose proof (proj2 (rd_unique g) _ _ _ _ Hr H ltac:(discriminate) ltac:(discriminate)) as F. cbn in F. destruct st' as [|[l4 B] st']; [discriminate|]. injection F as <- <-. cbn [ex] in Hp.
          apply (N2 B); auto. apply rd_open_inv in H. tauto.
        * pose proof (proj2 (rd_unique g) _ _ _ _ Hr H ltac:(discriminate) ltac:(discriminate)) as F. cbn in F. injection F as <- <-. auto.
  Qed.
End Apart.

Section Run.
  Context {N T E : Type} (tix : T -> nat).
  Variables (rules : list rule) (start ss : nat) (gens : list (reducer N T E)) (w : list T).
  Hypothesis TA : told_apart rules.
  Hypothesis Hst : In start (nonterminals rules).
  Hypothesis Hss : ~ In ss (nonterminals rules).
  Definition left_over (c : conf (N := N)) : list term := map (fun x => TSym (tix x)) (skipn (c_pos c) w).
  Lemma look_left c : look tix w c = next_of (left_over c).
  Proof.
    unfold look, left_over. destruct (nth_error w (c_pos c)) as [x|] eqn:Ex.
    - apply nth_error_split in Ex as (l1 & l2 & -> & <-). rewrite skipn_app, skipn_all, Nat.sub_diag. reflexivity.
    - apply nth_error_None in Ex. rewrite skipn_all2 by auto. reflexivity.
  Qed.
  Lemma left_next c x : nth_error w (c_pos c) = Some x -> left_over c = TSym (tix x) :: map (fun x => TSym (tix x)) (skipn (S (c_pos c)) w).
  Proof.
    intros Ex. unfold left_over. apply nth_error_split in Ex as (l1 & l2 & -> & <-). rewrite skipn_app, skipn_all, Nat.sub_diag. cbn [app skipn map].
    f_equal. f_equal. symmetry. apply (skipn_len_app l1 l2 x).
  Qed.
  Definition inv (c : conf (N := N)) : Prop := exists st m, rd rules start (c_syms c) st m /\ acc rules start st m (left_over c).
  Lemma inv_step c c1 : inv c -> mstep tix rules start ss gens w c c1 -> inv c1.
  Proof.
    intros (st & m & Hr & Ha) Hs. inversion Hs as [x D1 D2 E1|k r l l' args f v D1 D2 D3 D4 D5 D6 D7 E1|m' act D1 D2 D3 D4 D5 i dropped E1].
    - rewrite look_left in D1. rewrite (left_next _ _ D2) in *. cbn [next_of] in D1. destruct (shift_keeps rules start ss TA Hst Hss _ _ _ _ _ Hr Ha D1) as (st' & m' & H1 & H2).
      exists st', m'. split; [unfold c_syms; cbn; rewrite map_app; exact H1|exact H2].
    - rewrite look_left in D1. destruct D1 as (N1 & _ & (_ & Hc) & _). destruct (reduce_keeps rules start ss TA Hst Hss _ _ _ _ k r Hr Ha N1 D2 Hc) as (g0 & st' & Eg & H1 & H2).
      exists st', Have. split; [|exact H2]. unfold c_syms in *. cbn. rewrite D3, map_app in Eg. rewrite map_app. cbn.
      assert (Eg0 : map csym l = g0).
      { pose proof Eg as El. apply (f_equal (@length _)) in El. rewrite !app_length, !map_length, D4 in El. assert (El' : length g0 = length (map csym l)) by (rewrite map_length; lia).
        apply (f_equal (firstn (length g0))) in Eg. rewrite firstn_len_app in Eg. rewrite El', firstn_len_app in Eg. exact Eg. }
      rewrite Eg0. exact H1.
    - exfalso. rewrite look_left in D1. eapply never_stuck; eauto.
  Qed.
  Lemma inv_init : der rules (NT start) (map (fun x => TSym (tix x)) w) -> inv (c_init (N := N)).
  Proof. intros Hd. exists [], Need. split; [constructor|]. apply acc_word; auto. Qed.
  Lemma inv_steps n c c1 : msteps tix rules start ss gens w n c c1 -> inv c -> inv c1.
  Proof. induction 1; eauto using inv_step. Qed.
  Lemma never_not_found rest : der rules (NT start) (map (fun x => TSym (tix x)) w) -> ~ mach_ends tix rules start ss gens w (Ok (RNotFound, rest)).
  Proof.
    intros Hd (n & c & Hs & He). destruct (inv_steps _ _ _ Hs (inv_init Hd)) as (st & m & Hr & Ha). inversion He as [|D1 D2 E1| | |]; subst. rewrite look_left in D1. eapply never_stuck; eauto.
  Qed.
End Run.
