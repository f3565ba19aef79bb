(** * calc_null and calc_first compute exactly the nullable symbols and the FIRST sets *)
From Coq Require Import List Arith Lia Bool.
From Verif Require Import Lib Grammar LrModel.
Import ListNotations.

(** ** Counting *)
Lemma filter_le {A} (f g : A -> bool) (l : list A) : (forall x, In x l -> g x = true -> f x = true) ->
  length (filter g l) <= length (filter f l).
Proof.
  induction l as [|a l IH]; simpl; intros H; [lia|].
  assert (Hl : length (filter g l) <= length (filter f l)) by (apply IH; intros x Hx; apply H; auto).
  specialize (H a (or_introl eq_refl)). destruct (g a), (f a); simpl; try lia;
  specialize (H eq_refl); discriminate.
Qed.
Lemma filter_lt {A} (f g : A -> bool) (l : list A) : (forall x, In x l -> g x = true -> f x = true) ->
  (exists x, In x l /\ f x = true /\ g x = false) -> length (filter g l) < length (filter f l).
Proof.
  induction l as [|a l IH]; simpl; intros H (x & Hx & Hf & Hg); [contradiction|].
  assert (Hle : length (filter g l) <= length (filter f l)) by (apply filter_le; intros y Hy; apply H; auto).
  destruct Hx as [->|Hx].
  - rewrite Hf, Hg. simpl. lia.
  - assert (Hlt : length (filter g l) < length (filter f l)).
    { apply IH; [intros y Hy; apply H; auto|]. exists x. auto. }
    pose proof (H a (or_introl eq_refl)) as Ha. destruct (g a), (f a); simpl; try lia;
    specialize (Ha eq_refl); discriminate.
Qed.

(** ** Derivations *)
Lemma ders_app rs l1 l2 u v : ders rs l1 u -> ders rs l2 v -> ders rs (l1 ++ l2) (u ++ v).
Proof.
  revert u. induction l1 as [|x l1 IH]; intros u H1 H2; inversion H1; subst; simpl; auto.
  rewrite <- app_assoc. constructor; auto.
Qed.
Lemma ders_app_inv rs l1 l2 w : ders rs (l1 ++ l2) w -> exists u v, w = u ++ v /\ ders rs l1 u /\ ders rs l2 v.
Proof.
  revert w. induction l1 as [|x l1 IH]; simpl; intros w H.
  - exists [], w. repeat split; auto. constructor.
  - inversion H; subst. destruct (IH _ H4) as (u' & v' & -> & Hu & Hv).
    exists (u ++ u'), v'. rewrite app_assoc. repeat split; auto. constructor; auto.
Qed.
Lemma der_ders rs X w : der rs X w -> ders rs [X] w.
Proof. intros H. rewrite <- (app_nil_r w). constructor; [exact H|constructor]. Qed.
Lemma ders_der rs X w : ders rs [X] w -> der rs X w.
Proof. intros H. inversion H; subst. inversion H4; subst. rewrite app_nil_r. auto. Qed.
Lemma ders_null_In rs l : ders rs l [] -> forall X, In X l -> der rs X [].
Proof.
  induction l as [|x l IH]; intros H X HX; [contradiction|].
  inversion H; subst. match goal with E : _ ++ _ = [] |- _ => apply app_eq_nil in E as [-> ->] end. destruct HX as [->|HX]; auto.
Qed.
Lemma ders_all_null rs l : (forall X, In X l -> der rs X []) -> ders rs l [].
Proof.
  induction l as [|x l IH]; intros H; [constructor|].
  change (@nil term) with (@nil term ++ []). constructor; [apply H; left; auto|].
  apply IH. intros; apply H; right; auto.
Qed.

(** ** calc_null *)
Lemma null_fold rs : forall l nl up nl' up', fold_left null_rule l (nl, up) = (nl', up') ->
  incl l rs -> sorted nl -> (forall X, In X nl -> exists n, X = NT n /\ der rs X []) ->
  incl nl nl' /\ sorted nl' /\ (forall X, In X nl' -> exists n, X = NT n /\ der rs X []) /\
  (up' = false -> nl' = nl /\ up = false /\
     forall r, In r l -> In (NT (r_lhs r)) nl \/ forallb (fun x => mem x nl) (r_rhs r) = false) /\
  (up' = true -> up = true \/ exists r, In r l /\ ~ In (NT (r_lhs r)) nl /\ In (NT (r_lhs r)) nl').
Proof.
  induction l as [|r l IH]; simpl; intros nl up nl' up' H Hl Hs Hn.
  - injection H as <- <-. split; [apply incl_refl|]. split; [auto|]. split; [auto|]. split.
    + intros ->. split; [auto|]. split; [auto|]. intros r [].
    + auto.
  - assert (Hl' : incl l rs) by (intros x Hx; apply Hl; right; auto).
    destruct (mem (NT (r_lhs r)) nl) eqn:E1.
    + destruct (IH _ _ _ _ H Hl' Hs Hn) as (A & B & C & D & F).
      split; [auto|]. split; [auto|]. split; [auto|]. split.
      * intros Hu. destruct (D Hu) as (D1 & D2 & D3). split; [auto|]. split; [auto|].
        intros r' [<-|Hr']; [left; apply mem_In; auto|auto].
      * intros Hu. destruct (F Hu) as [F'|(r' & Hr' & F')]; [auto|right; exists r'; auto].
    + destruct (forallb (fun x => mem x nl) (r_rhs r)) eqn:E2.
      * assert (Hs' : sorted (ins (NT (r_lhs r)) nl)) by (apply sorted_ins; auto).
        assert (Hn' : forall X, In X (ins (NT (r_lhs r)) nl) -> exists n, X = NT n /\ der rs X []).
        { intros X HX. apply In_ins in HX as [->|HX]; [|auto]. eexists; split; [reflexivity|].
          apply der_rule; [apply Hl; left; auto|]. apply ders_all_null. intros Y HY.
          rewrite forallb_forall in E2. specialize (E2 Y HY). apply mem_In in E2.
          destruct (Hn Y E2) as (n & -> & Hd). auto. }
        destruct (IH _ _ _ _ H Hl' Hs' Hn') as (A & B & C & D & F).
        split; [intros x Hx; apply A, In_ins; auto|]. split; [auto|]. split; [auto|]. split.
        -- intros Hu. destruct (D Hu) as (_ & D2 & _). discriminate.
        -- intros _. right. exists r. split; [auto|]. split; [apply mem_nIn; auto|]. apply A, In_ins. auto.
      * destruct (IH _ _ _ _ H Hl' Hs Hn) as (A & B & C & D & F).
        split; [auto|]. split; [auto|]. split; [auto|]. split.
        -- intros Hu. destruct (D Hu) as (D1 & D2 & D3). split; [auto|]. split; [auto|].
           intros r' [<-|Hr']; [right; auto|auto].
        -- intros Hu. destruct (F Hu) as [F'|(r' & Hr' & F')]; [auto|right; exists r'; auto].
Qed.

Definition null_exact (rs : list rule) (nl : list sym) : Prop :=
  sorted nl /\ forall X, In X nl <-> der rs X [].

Lemma calc_null_ok rs : exists F nl, null_exact rs nl /\ forall fuel, F <= fuel -> calc_null fuel rs = Ok nl.
Proof.
  set (I := fun nl : list sym => sorted nl /\ forall X, In X nl -> exists n, X = NT n /\ der rs X []).
  set (m := fun nl : list sym => length (filter (fun r => negb (mem (NT (r_lhs r)) nl)) rs)).
  destruct (loop_term (null_step rs) I (fun a b => m a < m b)
              (fun r => exists nl, r = Ok nl /\ null_exact rs nl)) with (s := @nil sym) as (F & r & (nl & -> & Hnl) & HF).
  - apply (Wf_nat.well_founded_lt_compat _ m). auto.
  - intros nl [Hs Hn]. unfold null_step. destruct (null_pass rs nl) as [nl' up] eqn:E. unfold null_pass in E.
    destruct (null_fold rs _ _ _ _ _ E (incl_refl _) Hs Hn) as (A & B & C & D & F).
    destruct up.
    + split; [split; auto|]. destruct (F eq_refl) as [F'|(r & Hr & Hr1 & Hr2)]; [discriminate|].
      unfold m. apply filter_lt.
      * intros x _ Hx. apply negb_true_iff in Hx. apply negb_true_iff. apply mem_nIn in Hx. apply mem_nIn. auto.
      * exists r. split; [auto|]. split.
        -- apply negb_true_iff, mem_nIn. auto.
        -- apply negb_false_iff, mem_In. auto.
    + split; [discriminate|]. exists nl'. split; [reflexivity|]. split; [auto|]. intros X.
      split; [intros HX; destruct (C X HX) as (n & -> & Hd); auto|].
      destruct (D eq_refl) as (-> & _ & D').
      assert (G : (forall Y w, der rs Y w -> w = [] -> In Y nl) /\ (forall l w, ders rs l w -> w = [] -> forall Y, In Y l -> In Y nl)).
      { apply der_ders_ind.
        - intros t Ht. discriminate.
        - intros r w Hr _ IH ->. destruct (D' r Hr) as [D'0|D'0]; [auto|]. exfalso.
          assert (Ht : forallb (fun x => mem x nl) (r_rhs r) = true).
          { apply forallb_forall. intros x Hx. apply mem_In. apply IH; auto. }
          congruence.
        - intros _ Y [].
        - intros Y l u v _ IH1 _ IH2 Huv Z HZ. apply app_eq_nil in Huv as [-> ->]. destruct HZ as [<-|HZ]; auto. }
      intros HX. eapply (proj1 G); eauto.
  - split; [apply sorted_nil|intros X []].
  - exists F, nl. auto.
Qed.

(** ** FIRST *)
Inductive firstl (rs : list rule) : list sym -> term -> Prop :=
| fl_t t l : firstl rs (TM t :: l) t
| fl_nt r l t : In r rs -> firstl rs (r_rhs r) t -> firstl rs (NT (r_lhs r) :: l) t
| fl_skip X l t : der rs X [] -> firstl rs l t -> firstl rs (X :: l) t.

Lemma rewr_trans rs a b c : rewr rs a b -> rewr rs b c -> rewr rs a c.
Proof. induction 1; auto. intros Hc. apply rewr_step; auto. Qed.
Lemma rewr_ctx rs a b : rewr rs a b -> forall l1 l2, rewr rs (l1 ++ a ++ l2) (l1 ++ b ++ l2).
Proof.
  induction 1 as [l|l1 r l2 l' Hr H IH]; intros m1 m2; [constructor|].
  replace (m1 ++ (l1 ++ NT (r_lhs r) :: l2) ++ m2) with ((m1 ++ l1) ++ NT (r_lhs r) :: (l2 ++ m2))
    by (rewrite <- !app_assoc; reflexivity).
  apply rewr_step; auto. specialize (IH m1 m2).
  replace ((m1 ++ l1) ++ r_rhs r ++ l2 ++ m2) with (m1 ++ (l1 ++ r_rhs r ++ l2) ++ m2)
    by (rewrite <- !app_assoc; reflexivity). exact IH.
Qed.
Lemma der_rewr rs : (forall X w, der rs X w -> rewr rs [X] (map TM w)) /\ (forall l w, ders rs l w -> rewr rs l (map TM w)).
Proof.
  apply der_ders_ind.
  - intros t. constructor.
  - intros r w Hr _ IH. apply (rewr_step rs [] r []); auto. rewrite app_nil_r. exact IH.
  - constructor.
  - intros X l u v _ IH1 _ IH2. rewrite map_app.
    apply rewr_trans with (map TM u ++ l).
    + apply (rewr_ctx rs _ _ IH1 [] l).
    + pose proof (rewr_ctx rs _ _ IH2 (map TM u) []) as H. rewrite !app_nil_r in H. exact H.
Qed.

Lemma firstl_app rs a b t : firstl rs (a ++ b) t <-> firstl rs a t \/ ((forall X, In X a -> der rs X []) /\ firstl rs b t).
Proof.
  induction a as [|x a IH]; simpl.
  - split; [intros H; right; split; [intros X []|auto]|intros [H|[_ H]]; [inversion H|auto]].
  - split.
    + intros H. inversion H; subst.
      * left. constructor.
      * left. constructor; auto.
      * apply IH in H4 as [H4|[H4 H5]]; [left; apply fl_skip; auto|].
        right. split; [|auto]. intros X [<-|HX]; auto.
    + intros [H|[H1 H2]].
      * inversion H; subst; [constructor|constructor; auto|apply fl_skip; auto; apply IH; auto].
      * apply fl_skip; [apply H1; auto|]. apply IH. right. split; auto.
Qed.

Lemma firsts_firstl rs l t : firsts rs l t <-> firstl rs l t.
Proof.
  split.
  - intros [l' H]. remember (TM t :: l') as e eqn:Ee. revert Ee.
    induction H as [l|l1 r l2 e' Hr H IH]; intros Ee; [subst; constructor|].
    specialize (IH Ee). apply firstl_app in IH as [IH|[IH1 IH2]].
    + apply firstl_app. auto.
    + apply firstl_app in IH2 as [IH2|[IH2 IH3]].
      * apply firstl_app. right. split; auto. constructor; auto.
      * apply firstl_app. right. split; auto. apply fl_skip; auto. constructor; auto.
        apply ders_all_null. auto.
  - induction 1 as [t l|r l t Hr _ [l' IH]|X l t Hd _ [l' IH]].
    + exists l. constructor.
    + exists (l' ++ l). apply (rewr_step rs [] r l); auto. apply (rewr_ctx rs _ _ IH [] l).
    + exists l'. apply rewr_trans with l; [|auto].
      pose proof (proj1 (der_rewr rs) _ _ Hd) as H. apply (rewr_ctx rs _ _ H [] l).
Qed.

Definition fmem (fm : list (sym * list term)) (X : sym) (t : term) : Prop := In t (aget_or eqb X [] fm).
Fixpoint fpre (nl : list sym) (fm : list (sym * list term)) (l : list sym) (t : term) : Prop :=
  match l with [] => False | x :: l' => fmem fm x t \/ (In x nl /\ fpre nl fm l' t) end.

Lemma In_first_rhs nl fm l : forall u t, In t (first_rhs nl fm l u) <-> In t u \/ fpre nl fm l t.
Proof.
  induction l as [|x l IH]; simpl; intros u t; [tauto|].
  unfold fmem, aget_or. rewrite <- (mem_In x nl). destruct (aget eqb x fm) as [s|].
  - destruct (mem x nl); [rewrite IH|]; rewrite In_ins_all; intuition congruence.
  - destruct (mem x nl); [rewrite IH|]; simpl; intuition congruence.
Qed.
Lemma fpre_ext nl fm fm' l t : (forall X t, In X l -> fmem fm X t -> fmem fm' X t) -> fpre nl fm l t -> fpre nl fm' l t.
Proof. induction l as [|x l IH]; simpl; intros H; [auto|]. intros [H1|[H1 H2]]; [left; auto|right; auto]. Qed.

Definition occurs (rs : list rule) (t : term) : Prop := exists r, In r rs /\ In (TM t) (r_rhs r).

Lemma fmem_aset fm X s Y t : fmem (aset eqb X s fm) Y t <-> (Y = X /\ In t s) \/ (Y <> X /\ fmem fm Y t).
Proof.
  unfold fmem, aget_or. rewrite (aget_aset eqb eqb_eq). destruct (eqb Y X) eqn:E.
  - apply eqb_eq in E. subst. intuition.
  - apply eqb_neq in E. intuition.
Qed.

Lemma first_fold nl rs : forall l fm up fm' up', fold_left (first_rule nl) l (fm, up) = (fm', up') ->
  (forall X t, fmem fm X t -> fmem fm' X t) /\
  (up' = false -> up = false /\ (forall X t, fmem fm' X t -> fmem fm X t) /\
     forall r t, In r l -> fpre nl fm (r_rhs r) t -> fmem fm (NT (r_lhs r)) t) /\
  (up' = true -> up = true \/ exists r t, In r l /\ ~ fmem fm (NT (r_lhs r)) t /\ fmem fm' (NT (r_lhs r)) t) /\
  (forall P : sym -> term -> Prop, (forall fm0 r t, incl l rs -> In r l -> (forall X t, fmem fm0 X t -> P X t) ->
        fpre nl fm0 (r_rhs r) t -> P (NT (r_lhs r)) t) -> incl l rs ->
     (forall X t, fmem fm X t -> P X t) -> (forall X t, fmem fm' X t -> P X t)).
Proof.
  induction l as [|r l IH]; simpl; intros fm up fm' up' H.
  - injection H as <- <-. split; [auto|]. split; [intros ->; split; [auto|split; [auto|intros r t []]]|]. split; [auto|]. auto.
  - set (u := first_rhs nl fm (r_rhs r) []) in *. set (old := aget_or eqb (NT (r_lhs r)) [] fm) in *.
    set (fm1 := aset eqb (NT (r_lhs r)) (ins_all u old) fm) in *.
    assert (Hu : forall t, In t u <-> fpre nl fm (r_rhs r) t).
    { intros t. unfold u. rewrite In_first_rhs. simpl. tauto. }
    assert (H1 : forall X t, fmem fm1 X t <-> fmem fm X t \/ (X = NT (r_lhs r) /\ fpre nl fm (r_rhs r) t)).
    { intros X t. unfold fm1. rewrite fmem_aset, In_ins_all, Hu.
      destruct (eq_dec X (NT (r_lhs r))) as [->|Hn]; [|tauto]. unfold fmem, old. tauto. }
    destruct (IH _ _ _ _ H) as (A & B & C & D). clear IH.
    split; [intros X t Hx; apply A, H1; auto|]. split; [|split].
    + intros Hu'. destruct (B Hu') as (B1 & B2 & B3). apply orb_false_iff in B1 as [B1 B1'].
      assert (Hin : forall t, In t u -> In t old).
      { intros t Ht. destruct (mem t old) eqn:E; [apply mem_In; auto|]. exfalso.
        assert (Hex : existsb (fun t => negb (mem t old)) u = true) by (apply existsb_exists; exists t; rewrite E; auto).
        congruence. }
      assert (Hsame : forall X t, fmem fm1 X t -> fmem fm X t).
      { intros X t Hx. apply H1 in Hx as [Hx|[-> Hx]]; [auto|]. apply Hin, Hu, Hx. }
      split; [auto|]. split; [auto|]. intros r' t [<-|Hr'] Hp; [apply Hin, Hu, Hp|].
      apply Hsame. apply B3; auto. eapply fpre_ext; [|exact Hp]. intros X t0 _ Hx. apply H1. auto.
    + intros Hu'. destruct (C Hu') as [C1|(r' & t & Hr' & C1 & C2)].
      * apply orb_true_iff in C1 as [C1|C1]; [auto|]. right. apply existsb_exists in C1 as (t & Ht & Hm).
        apply negb_true_iff, mem_nIn in Hm. exists r, t. split; [auto|]. split; [auto|].
        apply A, H1. right. split; [auto|]. apply Hu; auto.
      * right. exists r', t. split; [auto|]. split; [|auto]. intros Hx. apply C1, H1. auto.
    + intros P HP Hl H0. apply D.
      * intros fm0 r' t Hl' Hr'. apply HP; auto.
      * intros x Hx. apply Hl; right; auto.
      * intros X t Hx. apply H1 in Hx as [Hx|[-> Hx]]; [auto|]. eapply HP; eauto.
Qed.

Lemma first_init_spec rs X t : fmem (first_init rs) X t <-> X = TM t /\ occurs rs t.
Proof.
  unfold first_init, occurs.
  assert (G1 : forall l fm X t, fmem (fold_left (fun fm x => match x with TM t => aupd eqb x [] (ins t) fm | NT _ => fm end) l fm) X t
             <-> fmem fm X t \/ (X = TM t /\ In (TM t) l)).
  { induction l as [|y l IH]; simpl; intros fm Y s; [tauto|]. rewrite IH. destruct y as [n|t0].
    - intuition congruence.
    - assert (Hf : fmem (aupd eqb (TM t0) [] (ins t0) fm) Y s <-> fmem fm Y s \/ (Y = TM t0 /\ s = t0)).
      { unfold fmem, aget_or. rewrite (aget_aupd eqb eqb_eq). destruct (eqb Y (TM t0)) eqn:E.
        - apply eqb_eq in E. subst Y. destruct (aget eqb (TM t0) fm); rewrite In_ins; simpl; intuition.
        - apply eqb_neq in E. intuition congruence. }
      rewrite Hf. intuition (subst; auto). left; right. split; congruence. }
  assert (G2 : forall l fm, fmem (fold_left (fun fm r => fold_left (fun fm x => match x with TM t => aupd eqb x [] (ins t) fm | NT _ => fm end) (r_rhs r) fm) l fm) X t
             <-> fmem fm X t \/ (X = TM t /\ exists r, In r l /\ In (TM t) (r_rhs r))).
  { induction l as [|r l IH]; simpl; intros fm.
    - split; [auto|]. intros [H|[_ (r & [] & _)]]. auto.
    - rewrite IH, G1. split.
      + intros [[H|[-> H]]|[-> (r' & H1 & H2)]]; [auto|right; split; eauto|right; split; eauto].
      + intros [H|[-> (r' & [<-|H1] & H2)]]; [auto|auto|right; split; eauto]. }
  rewrite G2. unfold fmem, aget_or. simpl. tauto.
Qed.

(** the table [fm] is exact: FIRST of every symbol that occurs *)
Definition first_exact (rs : list rule) (fm : list (sym * list term)) : Prop :=
  (forall n t, fmem fm (NT n) t <-> firstl rs [NT n] t) /\
  (forall t t', fmem fm (TM t) t' <-> occurs rs t /\ t' = t).

Definition terms_of (rs : list rule) : list term :=
  flat_map (fun r => flat_map (fun x => match x with TM t => [t] | NT _ => [] end) (r_rhs r)) rs.
Lemma In_terms_of rs t : In t (terms_of rs) <-> occurs rs t.
Proof.
  unfold terms_of, occurs. rewrite in_flat_map. split; intros (r & Hr & H); exists r; split; auto.
  - apply in_flat_map in H as (x & Hx & H). destruct x as [n|t']; [destruct H|]. destruct H as [->|[]]. auto.
  - apply in_flat_map. exists (TM t). simpl. auto.
Qed.
Lemma firstl_occurs rs l t : firstl rs l t -> In (TM t) l \/ occurs rs t.
Proof.
  induction 1 as [t l|r l t Hr H IH|X l t Hd H IH].
  - left; left; auto.
  - right. destruct IH as [IH|IH]; [exists r; auto|auto].
  - destruct IH as [IH|IH]; [left; right; auto|auto].
Qed.

Lemma fpre_firstl rs nl fm l t : null_exact rs nl -> (forall X t, fmem fm X t -> firstl rs [X] t) -> fpre nl fm l t -> firstl rs l t.
Proof.
  intros [_ Hn] Hf. induction l as [|x l IH]; simpl; [tauto|]. intros [H|[H1 H2]].
  - apply (firstl_app rs [x] l). left. auto.
  - apply fl_skip; [apply Hn; auto|auto].
Qed.

Lemma calc_first_ok rs nl : null_exact rs nl ->
  exists F fm, first_exact rs fm /\ forall fuel, F <= fuel -> calc_first fuel rs nl = Ok fm.
Proof.
  intros Hnl.
  set (I := fun fm => (forall X t, fmem fm X t -> firstl rs [X] t /\ occurs rs t) /\
                      (forall t, occurs rs t -> fmem fm (TM t) t)).
  set (m := fun fm : list (sym * list term) =>
    length (filter (fun rt => negb (mem (snd rt) (aget_or eqb (NT (r_lhs (fst rt))) [] fm))) (list_prod rs (terms_of rs)))).
  destruct (loop_term (first_step nl rs) I (fun a b => m a < m b)
              (fun r => exists fm, r = Ok fm /\ first_exact rs fm)) with (s := first_init rs) as (F & r & (fm & -> & Hfm) & HF).
  - apply (Wf_nat.well_founded_lt_compat _ m). auto.
  - intros fm [Hi1 Hi2]. unfold first_step. destruct (fold_left (first_rule nl) rs (fm, false)) as [fm' up] eqn:E.
    destruct (first_fold nl rs _ _ _ _ _ E) as (A & B & C & D).
    assert (Hi' : forall X t, fmem fm' X t -> firstl rs [X] t /\ occurs rs t).
    { apply D; [|apply incl_refl|exact Hi1]. intros fm0 r t _ Hr H0 Hp.
      assert (Hfl : firstl rs (r_rhs r) t) by (eapply fpre_firstl; eauto; intros X t0 HX; apply (H0 X t0 HX)).
      split; [constructor; auto|].
      destruct (firstl_occurs _ _ _ Hfl) as [H|H]; [exists r; auto|auto]. }
    destruct up.
    + split; [split; [auto|intros t Ht; apply A; auto]|].
      destruct (C eq_refl) as [C'|(r & t & Hr & C1 & C2)]; [discriminate|]. unfold m. apply filter_lt.
      * intros [r0 t0] _ Hx. simpl in *. apply negb_true_iff in Hx. apply negb_true_iff. apply mem_nIn in Hx. apply mem_nIn.
        intros Hin. apply Hx. apply A. exact Hin.
      * exists (r, t). split; [apply in_prod; [auto|]; apply In_terms_of; apply (Hi' _ _ C2)|]. simpl. split.
        -- apply negb_true_iff, mem_nIn. exact C1.
        -- apply negb_false_iff, mem_In. exact C2.
    + split; [discriminate|]. exists fm'. split; [reflexivity|]. destruct (B eq_refl) as (_ & B2 & B3).
      assert (Hcomp : forall l t, firstl rs l t -> (forall t', In (TM t') l -> occurs rs t') -> fpre nl fm l t).
      { induction 1 as [t l|r l t Hr H IH|X l t Hd H IH]; intros Hocc; simpl.
        - left. apply Hi2. apply Hocc. left; auto.
        - left. apply B3; auto. apply IH. intros t' Ht'. exists r. auto.
        - right. split; [apply Hnl; auto|]. apply IH. intros t' Ht'. apply Hocc. right; auto. }
      split.
      * intros n t. split; [intros H; apply Hi'; auto|]. intros H.
        assert (Hp : fpre nl fm [NT n] t) by (apply Hcomp; auto; intros t' [Ht'|[]]; discriminate).
        simpl in Hp. destruct Hp as [Hp|[_ []]]. apply A. auto.
      * intros t t'. split.
        -- intros H. apply Hi' in H as [H1 H2]. inversion H1; subst.
           ++ auto.
           ++ match goal with H : der rs (TM t) [] |- _ => inversion H end.
        -- intros [H ->]. apply A, Hi2. auto.
  - split.
    + intros X t H. apply first_init_spec in H as [-> H]. split; [constructor|auto].
    + intros t H. apply first_init_spec. auto.
  - exists F, fm. auto.
Qed.

(** ** get_first *)
Lemma get_first_spec rs nl fm l : null_exact rs nl -> first_exact rs fm ->
  forall u t, In t (get_first nl fm l u) <-> In t u \/ firstl rs l t.
Proof.
  intros Hn Hf. induction l as [|x l IH]; simpl; intros u t.
  - split; [auto|]. intros [H|H]; [auto|inversion H].
  - assert (Hx : forall u, In t (match x with
                | TM t => ins t u
                | NT _ => match aget eqb x fm with Some s => ins_all s u | None => u end
                end) <-> In t u \/ firstl rs [x] t).
    { intros u0. destruct x as [n|t0].
      - destruct Hf as [Hf _]. rewrite <- Hf. unfold fmem, aget_or. destruct (aget eqb (NT n) fm).
        + rewrite In_ins_all. tauto.
        + simpl. tauto.
      - rewrite In_ins. split.
        + intros [->|H]; [right; constructor|auto].
        + intros [H|H]; [auto|]. inversion H; subst; [auto|].
          match goal with H : der rs (TM _) [] |- _ => inversion H end. }
    rewrite (firstl_app rs [x] l). destruct (mem x nl) eqn:E.
    + rewrite IH, Hx. apply mem_In, Hn in E. split.
      * intros [[H|H]|H]; auto. right; right. split; [|auto]. intros X [<-|[]]. auto.
      * intros [H|[H|[_ H]]]; auto.
    + rewrite Hx. split; [tauto|]. intros [H|[H|[H1 H2]]]; auto. exfalso. apply mem_nIn in E. apply E, Hn.
      apply H1. left; auto.
Qed.
