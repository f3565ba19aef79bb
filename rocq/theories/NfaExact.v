(** Relation between what the NFA recognises ([sem _ B E]) and the regular expression
    ([matches]): inclusion always, equality on a decidable class of expressions. *)
From Verif Require Import Lib Hir NfaPath NfaSem NfaModel NfaProofs NfaCorrect NfaTop.

Definition supported (h : hir) : Prop := forall e, ~ uses h e.

Lemma sem_built h : wf_hir h -> supported h -> exists hp n, mat_eq (mat_of hp n) (sem h).
Proof.
  intros Hw Hs. destruct (nfa_of_spec h Hw [] (Forall_nil _)) as [(hp & n & _ & (_ & _ & _ & Hm) & _)|(e & _ & Hu)].
  - eauto.
  - exfalso. eapply Hs; eauto.
Qed.
Lemma sem_refl h x : wf_hir h -> supported h -> sem h x x [].
Proof. intros Hw Hs. destruct (sem_built h Hw Hs) as (hp & n & Hm). apply Hm. constructor. Qed.
Lemma sem_trans h x y z u v : wf_hir h -> supported h -> sem h x y u -> sem h y z v -> sem h x z (u ++ v).
Proof.
  intros Hw Hs H1 H2. destruct (sem_built h Hw Hs) as (hp & n & Hm). apply Hm in H1, H2. apply Hm.
  eapply path_app; eauto.
Qed.

Definition m_ok (M : mat) : Prop := (forall x, M x x []) /\ (forall x y z u v, M x y u -> M y z v -> M x z (u ++ v)).
Lemma sem_ok h : wf_hir h -> supported h -> m_ok (sem h).
Proof. intros Hw Hs. split; intros; [apply sem_refl|eapply sem_trans]; eauto. Qed.

Lemma m_add_app M u v x y z w1 w2 : m_ok M -> m_add M u v x y w1 -> M y z w2 -> m_add M u v x z (w1 ++ w2).
Proof.
  intros [Hr Ht] H H2. destruct H as [w y H|w1 w' y H H'].
  - apply ma_base. eapply Ht; eauto.
  - rewrite <- app_assoc. apply ma_step; auto. eapply Ht; eauto.
Qed.
Lemma m_add_edge M u v x w : m_ok M -> m_add M u v x u w -> m_add M u v x v w.
Proof. intros [Hr Ht] H. rewrite <- (app_nil_r w). apply ma_step; auto. Qed.

Lemma pow_add M n w : m_ok M -> l_pow (M B E) n w -> m_add M E B B B w.
Proof.
  intros Hm. revert w. induction n as [|n IH]; intros w H.
  - simpl in H. unfold l_eps in H. subst. apply ma_base. apply Hm.
  - apply l_pow_S_r in H as (u & v & -> & Hu & Hv). apply m_add_edge; auto.
    eapply m_add_app; eauto.
Qed.

(** Every repetition operator recognises at least its language. *)
Lemma rep_sub k (A : lang) M : wf_rep k -> m_ok M -> (forall w, A w -> M B E w) ->
  forall w, rep_lang k A w -> rep_mat k M B E w.
Proof.
  intros Hk Hm HA w H.
  assert (HP : forall n w, l_pow A n w -> l_pow (M B E) n w) by (intros n; apply l_pow_mono; auto).
  assert (Hbd : forall n m, 1 <= n -> forall w, (exists i, n <= i /\ i <= m /\ l_pow A i w) -> m_bounded n m M B E w).
  { intros n m Hn w' (i & H1 & H2 & H3). simpl. destruct (Nat.eq_dec i m) as [->|].
    - right. auto.
    - left. exists w', []. rewrite app_nil_r. split; auto. split; [|apply Hm]. exists i. repeat split; auto; lia. }
  destruct k as [| | |n|n|n m]; simpl in *.
  - destruct H as [H|H].
    + unfold l_eps in H; subst. apply m_add_edge; auto. apply ma_base. apply Hm.
    + apply ma_base; auto.
  - destruct H as [n H]. eapply pow_add; eauto.
  - destruct H as (n & Hn & H). destruct n as [|n]; [lia|]. apply HP in H. apply l_pow_S_r in H as (u & v & -> & Hu & Hv).
    eapply m_add_app; eauto. eapply pow_add; eauto.
  - destruct n as [|[|n]].
    + exact H.
    + apply HA. apply l_pow_1. auto.
    + apply HP; auto.
  - destruct n as [|n].
    + destruct H as (i & _ & H). eapply pow_add; eauto.
    + destruct H as (i & Hi & H). unfold m_at_least. apply HP in H. replace i with (S n + (i - S n)) in H by lia.
      apply l_pow_add in H as (u & v & -> & Hu & Hv). exists u, v. split; auto. split; auto. eapply pow_add; eauto.
  - destruct H as (i & H1 & H2 & H3).
    destruct n as [|[|n]], m as [|[|m]]; try lia.
    + replace i with 0 in H3 by lia. exact H3.
    + destruct i as [|[|i]]; [|apply ma_base, HA, l_pow_1; auto|lia].
      simpl in H3. unfold l_eps in H3; subst. apply m_add_edge; auto. apply ma_base. apply Hm.
    + destruct i as [|i].
      * simpl in H3. unfold l_eps in H3; subst. rewrite <- (app_nil_l []). apply ma_step; [|apply Hm].
        apply ma_base. apply Hm.
      * apply ma_base. apply Hbd; [lia|]. exists (S i). repeat split; auto; lia.
    + replace i with 1 in H3 by lia. apply HA, l_pow_1; auto.
    + simpl. apply (Hbd 1 (S (S m)) ltac:(lia)). exists i. auto.
    + destruct (Nat.eqb_spec (S (S n)) (S (S m))) as [Heq|Hne].
      * replace i with (S (S n)) in H3 by lia. apply HP; auto.
      * apply Hbd; [lia|]. exists i; auto.
Qed.

Lemma supported_rep k g h : supported (HRep k g h) -> supported h.
Proof. intros H e Hu. eapply H. constructor; eauto. Qed.
Lemma supported_group h : supported (HGroup h) -> supported h.
Proof. intros H e Hu. eapply H. constructor; eauto. Qed.
Lemma supported_concat hs h : supported (HConcat hs) -> In h hs -> supported h.
Proof. intros H Hin e Hu. eapply H. econstructor; eauto. Qed.
Lemma supported_alt hs h : supported (HAlt hs) -> In h hs -> supported h.
Proof. intros H Hin e Hu. eapply H. econstructor; eauto. Qed.

Definition wf_list (hs : list hir) : Prop := (fix go l := match l with [] => True | x :: l' => wf_hir x /\ go l' end) hs.
Lemma wf_list_In hs h : wf_list hs -> In h hs -> wf_hir h.
Proof. induction hs as [|x hs IH]; simpl; [tauto|]. intros [H1 H2] [->|Hin]; auto. Qed.

(** The recogniser never misses a match. *)
Theorem matches_sem h : wf_hir h -> supported h -> forall w, matches h w -> sem h B E w.
Proof.
  induction h as [|c|b|rs|rs| | |kd g k IH|k IH|hs IH|hs IH] using hir_ind'; intros Hw Hs w H; simpl in *; auto.
  - unfold l_eps in H; subst. constructor.
  - destruct Hw as [Hk Hw]. apply supported_rep in Hs. apply (rep_sub kd (matches k) (sem k)); auto. apply sem_ok; auto.
  - apply supported_group in Hs. auto.
  - destruct Hw as [Hne Hw]. assert (Hs' : forall h, In h hs -> supported h) by (intros h Hin; eapply supported_concat; eauto). clear Hs.
    revert w H. induction IH as [|x l Hx Hl IHl]; intros w H; [congruence|].
    destruct Hw as [Hwx Hwl]. destruct l as [|y l].
    + apply (proj1 (l_cat_eps_r _ _)) in H. apply Hx; auto. apply Hs'; simpl; auto.
    + destruct H as (u & v & -> & Hu & Hv). exists u, v. split; auto. split.
      * apply Hx; auto. apply Hs'; simpl; auto.
      * apply IHl; auto; [congruence|]. intros h Hin. apply Hs'; simpl; auto.
  - assert (Hs' : forall h, In h hs -> supported h) by (intros h Hin; eapply supported_alt; eauto). clear Hs.
    revert w H. induction IH as [|x l Hx Hl IHl]; intros w H; auto.
    destruct Hw as [Hwx Hwl]. destruct H as [H|H].
    + left. apply Hx; auto. apply Hs'; simpl; auto.
    + right. apply IHl; auto. intros h Hin. apply Hs'; simpl; auto.
Qed.

(** *** A decidable class of expressions on which the recogniser is exact *)
(** [i_bf]/[i_ef]: only the empty word loops on begin / end; [i_ebz]: no way from end to
    begin; [i_bs]/[i_es]/[i_ebs]: the words looping on begin, looping on end, leading
    from end to begin are repetitions of the expression; [i_sl]: the expression or the
    empty word, closed under concatenation, covers all four. *)
Record info := mk_info { i_exact : bool; i_bf : bool; i_ef : bool; i_ebz : bool; i_bs : bool; i_es : bool; i_ebs : bool; i_sl : bool }.

Definition info_none := mk_info false false false false false false false false.
Definition info_atom (e : bool) := mk_info e true true true true true true false.
Definition info_zero := mk_info true true true false true true true true.
Definition info_opt (i : info) :=
  mk_info (i_exact i && (i_sl i || (i_ebz i && i_bf i && i_ef i)))
          (i_bf i && i_ebz i) (i_ef i && i_ebz i) (i_ebz i)
          (i_sl i || (i_ebz i && i_bs i)) (i_sl i || (i_ebz i && i_es i)) (i_sl i || i_ebz i) (i_sl i).
Definition info_star (i : info) := mk_info (i_exact i && i_bs i) false false false true true true true.
Definition info_plus (i : info) :=
  mk_info (i_exact i) false false false (i_bs i) (i_es i) (i_bs i && i_es i && i_ebs i) (i_bs i && i_es i && i_ebs i).
Definition info_exactly (i : info) := mk_info (i_exact i) (i_bf i) (i_ef i) true (i_bf i) (i_ef i) true false.
Definition info_at_least (i : info) := mk_info (i_exact i && i_bs i) (i_bf i) false true (i_bf i) false true false.
Definition info_bounded (n : nat) (i : info) :=
  mk_info (i_exact i) (i_bf i) (i_ef i) true
          (i_bf i || (Nat.eqb n 1 && i_bs i)) (i_ef i || (Nat.eqb n 1 && i_es i)) true false.
Definition info_bounded0 (i : info) :=
  mk_info (i_exact i && (i_sl i || (i_bf i && i_ef i))) (i_bf i) (i_ef i) true (i_bs i) (i_es i) true false.
Definition info_cat (i j : info) := mk_info (i_exact i && i_exact j) (i_bf i) (i_ef j) true (i_bf i) (i_ef j) true false.

Definition info_rep (k : rep) (i : info) : info :=
  match k with
  | RZeroOrOne => info_opt i
  | RZeroOrMore => info_star i
  | ROneOrMore => info_plus i
  | RExactly n => match n with 0 => info_zero | 1 => i | _ => info_exactly i end
  | RAtLeast n => match n with 0 => info_star i | _ => info_at_least i end
  | RBounded n m =>
      match n, m with
      | 0, 0 => info_zero
      | 0, 1 => info_opt i
      | 0, _ => info_bounded0 i
      | 1, 1 => i
      | _, _ => if Nat.eqb n m then info_exactly i else info_bounded n i
      end
  end.

Fixpoint info_of (h : hir) : info :=
  match h with
  | HEmpty | HLitB _ | HClassB _ | HAnchor | HWordB => info_none
  | HLitU _ | HClassU _ => info_atom true
  | HRep k _ h => info_rep k (info_of h)
  | HGroup h => info_of h
  | HConcat hs =>
      (fix go l := match l with
        | [] => info_none
        | [x] => info_of x
        | x :: l' => info_cat (info_of x) (go l')
        end) hs
  | HAlt hs => info_atom ((fix go l := match l with [] => true | x :: l' => i_exact (info_of x) && go l' end) hs)
  end.

(** The decidable class. *)
Definition exact_hir (h : hir) : bool := i_exact (info_of h).

Record good (i : info) (L : lang) (M : mat) : Prop := {
  g_be : forall w, M B E w -> L w;
  g_bf : i_bf i = true -> forall w, M B B w -> w = [];
  g_ef : i_ef i = true -> forall w, M E E w -> w = [];
  g_ebz : i_ebz i = true -> forall w, ~ M E B w;
  g_bs : i_bs i = true -> forall w, M B B w -> l_star L w;
  g_es : i_es i = true -> forall w, M E E w -> l_star L w;
  g_ebs : i_ebs i = true -> forall w, M E B w -> l_star L w;
  g_sl : i_sl i = true -> (forall x y w, M x y w -> L w \/ w = []) /\ (forall u v, L u -> L v -> L (u ++ v))
}.

Lemma star_nil L : l_star L [].
Proof. exists 0. reflexivity. Qed.
Lemma star_one (L : lang) w : L w -> l_star L w.
Proof. exists 1. apply l_pow_1. auto. Qed.
Lemma star_app L u v : l_star L u -> l_star L v -> l_star L (u ++ v).
Proof. intros [n Hn] [m Hm]. exists (n + m). apply l_pow_add. exists u, v. auto. Qed.
Lemma star_sub (L L' : lang) : (forall w, L w -> l_star L' w) -> forall w, l_star L w -> l_star L' w.
Proof.
  intros H w [n Hn]. revert w Hn. induction n as [|n IH]; simpl; intros w Hn.
  - unfold l_eps in Hn; subst. apply star_nil.
  - destruct Hn as (u & v & -> & Hu & Hv). apply star_app; auto.
Qed.
Lemma star_cases L w : l_star L w -> w = [] \/ exists n, 1 <= n /\ l_pow L n w.
Proof. intros [[|n] H]; [left; exact H|right; exists (S n); split; [lia|auto]]. Qed.
Lemma pow_star (L : lang) n w : l_pow L n w -> l_star L w.
Proof. exists n; auto. Qed.

(** Shapes of the words after adding an edge *)
Lemma m_add_EB_B (M : mat) (L : lang) y w : (forall w, M B E w -> L w) -> m_add M E B B y w ->
  exists u v, w = u ++ v /\ l_star L u /\ M B y v.
Proof.
  intros HL. induction 1 as [w y H|w1 w2 y H IH H2].
  - exists [], w. repeat split; auto. apply star_nil.
  - destruct IH as (u & v & -> & Hu & Hv). exists (u ++ v), w2. repeat split; auto. apply star_app; auto. apply star_one; auto.
Qed.
Lemma m_add_EB_E (M : mat) (L : lang) y w : (forall w, M B E w -> L w) -> m_add M E B E y w ->
  M E y w \/ exists a u v, w = a ++ u ++ v /\ M E E a /\ l_star L u /\ M B y v.
Proof.
  intros HL. induction 1 as [w y H|w1 w2 y H IH H2]; auto. right.
  destruct IH as [H1|(a & u & v & -> & Ha & Hu & Hv)].
  - exists w1, [], w2. repeat split; auto. apply star_nil.
  - exists a, (u ++ v), w2. rewrite <- !app_assoc. repeat split; auto. apply star_app; auto. apply star_one; auto.
Qed.
Lemma m_add_BE_noeb (M : mat) x y w : (forall w, ~ M E B w) -> m_add M B E x y w ->
  M x y w \/ exists u v, w = u ++ v /\ M x B u /\ M E y v.
Proof.
  intros Hz. induction 1 as [w y H|w1 w2 y H IH H2]; auto. right.
  destruct IH as [H1|(u & v & -> & Hu & Hv)].
  - exists w1, w2. auto.
  - exfalso. eapply Hz; eauto.
Qed.
Lemma m_add_closed (M : mat) (L : lang) u v x : (forall x y w, M x y w -> L w) -> (forall u v, L u -> L v -> L (u ++ v)) ->
  forall y w, m_add M u v x y w -> L w.
Proof. intros H1 H2 y w. induction 1; eauto. Qed.

Lemma good_atom L : good (info_atom true) L (m_atom L).
Proof.
  split; simpl; auto; try discriminate; intros _; try (intros w H; unfold l_eps, l_none in *; try tauto; subst; apply star_nil).
Qed.

Lemma good_zero (L : lang) : good info_zero l_eps (fun _ _ => l_eps).
Proof.
  split; simpl; auto; try discriminate; intros _; try (intros w H; unfold l_eps in *; subst; apply star_nil).
  split; [intros x y w H; auto|]. unfold l_eps. intros u v -> ->. reflexivity.
Qed.

Ltac bsplit := repeat match goal with H : _ && _ = true |- _ => apply andb_prop in H as [? ?] end.

Lemma good_opt i L M : m_ok M -> i_exact (info_opt i) = true -> good i L M -> good (info_opt i) (l_or l_eps L) (m_add M B E).
Proof.
  intros Hm He [Gbe Gbf Gef Gebz Gbs Ges Gebs Gsl]. simpl in He. bsplit. apply orb_prop in H0.
  assert (HLst : forall w, l_star L w -> l_star (l_or l_eps L) w).
  { apply star_sub. intros w Hw. apply star_one. right; auto. }
  assert (Hslw : i_sl i = true -> forall x y w, m_add M B E x y w -> l_or l_eps L w).
  { intros Hs. destruct (Gsl Hs) as [S1 S2]. intros x y w Hw. 
    assert (L w \/ w = []) as [|]; [|right; auto|left; auto].
    apply (m_add_closed M (fun w => L w \/ w = []) _ _ _ S1) in Hw; auto.
    intros u v [Hu|Hu] [Hv|Hv]; subst; auto; rewrite ?app_nil_r; auto. }
  split; cbn [i_exact i_bf i_ef i_ebz i_bs i_es i_ebs i_sl info_opt].
  - intros w Hw. destruct H0 as [Hs|Hb]; [eapply Hslw; eauto|]. bsplit.
    apply m_add_BE_noeb in Hw as [Hw|(u & v & -> & Hu & Hv)]; auto.
    + right; auto.
    + apply Gbf in Hu; apply Gef in Hv; auto. subst. left; reflexivity.
  - intros Hb w Hw. bsplit. apply m_add_BE_noeb in Hw as [Hw|(u & v & -> & Hu & Hv)]; auto. exfalso. eapply Gebz; eauto.
  - intros Hb w Hw. bsplit. apply m_add_BE_noeb in Hw as [Hw|(u & v & -> & Hu & Hv)]; auto. exfalso. eapply Gebz; eauto.
  - intros Hb w Hw. apply m_add_BE_noeb in Hw as [Hw|(u & v & -> & Hu & Hv)]; auto; eapply Gebz; eauto.
  - intros Hb w Hw. apply orb_prop in Hb as [Hb|Hb]; [apply star_one; eapply Hslw; eauto|]. bsplit.
    apply m_add_BE_noeb in Hw as [Hw|(u & v & -> & Hu & Hv)]; auto. exfalso. eapply Gebz; eauto.
  - intros Hb w Hw. apply orb_prop in Hb as [Hb|Hb]; [apply star_one; eapply Hslw; eauto|]. bsplit.
    apply m_add_BE_noeb in Hw as [Hw|(u & v & -> & Hu & Hv)]; auto. exfalso. eapply Gebz; eauto.
  - intros Hb w Hw. apply orb_prop in Hb as [Hb|Hb]; [apply star_one; eapply Hslw; eauto|].
    apply m_add_BE_noeb in Hw as [Hw|(u & v & -> & Hu & Hv)]; auto; exfalso; eapply Gebz; eauto.
  - intros Hb. destruct (Gsl Hb) as [S1 S2]. split.
    + intros x y w Hw. left. eapply Hslw; eauto.
    + intros u v [Hu|Hu] [Hv|Hv]; unfold l_or, l_eps in *; subst; auto. rewrite app_nil_r; auto.
Qed.

Lemma good_star i L M : i_exact (info_star i) = true -> good i L M -> good (info_star i) (l_star L) (m_star M).
Proof.
  intros He [Gbe Gbf Gef Gebz Gbs Ges Gebs Gsl]. simpl in He. bsplit.
  assert (Hall : forall w, m_add M E B B B w -> l_star L w).
  { intros w Hw. apply (m_add_EB_B M L) in Hw as (u & v & -> & Hu & Hv); auto. apply star_app; auto. }
  split; unfold m_star; cbn [i_exact i_bf i_ef i_ebz i_bs i_es i_ebs i_sl info_star]; try discriminate; auto.
  - intros _ w Hw. apply star_one; auto.
  - intros _ w Hw. apply star_one; auto.
  - intros _ w Hw. apply star_one; auto.
  - intros _. split; auto. intros u v Hu Hv. apply star_app; auto.
Qed.

Lemma good_plus i L M : good i L M -> good (info_plus i) (fun w => exists n, 1 <= n /\ l_pow L n w) (m_add M E B).
Proof.
  intros [Gbe Gbf Gef Gebz Gbs Ges Gebs Gsl].
  set (Lp := fun w => exists n, 1 <= n /\ l_pow L n w).
  assert (Hst : forall w, l_star L w -> l_star Lp w).
  { apply star_sub. intros w Hw. apply star_one. exists 1. split; auto. apply l_pow_1; auto. }
  assert (Hp : forall w, l_star L w -> Lp w \/ w = []).
  { intros w Hw. apply star_cases in Hw as [->|Hw]; auto. }
  assert (HBB : i_bs i = true -> forall w, m_add M E B B B w -> l_star L w).
  { intros Hb w Hw. apply (m_add_EB_B M L) in Hw as (u & v & -> & Hu & Hv); auto. apply star_app; auto. }
  assert (HBE : forall w, m_add M E B B E w -> Lp w).
  { intros w Hw. apply (m_add_EB_B M L) in Hw as (u & v & -> & [n Hu] & Hv); auto.
    exists (n + 1). split; [lia|]. apply l_pow_add. exists u, v. repeat split; auto. apply l_pow_1. auto. }
  assert (HEE : i_es i = true -> forall w, m_add M E B E E w -> l_star L w).
  { intros Hb w Hw. apply (m_add_EB_E M L) in Hw as [Hw|(a & u & v & -> & Ha & Hu & Hv)]; auto.
    apply star_app; auto. apply star_app; auto. apply star_one; auto. }
  assert (HEB : i_bs i && i_es i && i_ebs i = true -> forall w, m_add M E B E B w -> l_star L w).
  { intros Hb w Hw. bsplit. apply (m_add_EB_E M L) in Hw as [Hw|(a & u & v & -> & Ha & Hu & Hv)]; auto.
    apply star_app; auto. apply star_app; auto. }
  split; cbn [i_exact i_bf i_ef i_ebz i_bs i_es i_ebs i_sl info_plus]; try discriminate; auto.
  intros Hb. split.
  - intros x y w Hw. destruct x, y; auto.
    + apply Hp. apply HBB; auto. bsplit; auto.
    + apply Hp. apply HEE; auto. bsplit; auto.
  - intros u v (n & Hn & Hu) (m & Hm & Hv). exists (n + m). split; [lia|]. apply l_pow_add. exists u, v. auto.
Qed.

Lemma good_exactly n i L M : 1 <= n -> good i L M -> good (info_exactly i) (l_pow L n) (m_exactly n M).
Proof.
  intros Hn [Gbe Gbf Gef Gebz Gbs Ges Gebs Gsl].
  split; cbn [i_exact i_bf i_ef i_ebz i_bs i_es i_ebs i_sl info_exactly]; try discriminate; auto.
  - simpl. apply l_pow_mono. auto.
  - intros Hb w Hw. simpl in Hw. rewrite (Gbf Hb w Hw). apply star_nil.
  - intros Hb w Hw. simpl in Hw. rewrite (Gef Hb w Hw). apply star_nil.
  - intros _ w [].
Qed.

Lemma good_at_least n i L M : 1 <= n -> i_exact (info_at_least i) = true -> good i L M ->
  good (info_at_least i) (fun w => exists k, n <= k /\ l_pow L k w) (m_at_least n M).
Proof.
  intros Hn He [Gbe Gbf Gef Gebz Gbs Ges Gebs Gsl]. simpl in He. bsplit.
  split; cbn [i_exact i_bf i_ef i_ebz i_bs i_es i_ebs i_sl info_at_least]; try discriminate; auto.
  - simpl. intros w (u & v & -> & Hu & Hv).
    apply (m_add_EB_B M L) in Hv as (v1 & v2 & -> & [k1 H1] & H2); auto. apply Gbs in H2 as [k2 H2]; auto.
    exists (n + (k1 + k2)). split; [lia|]. apply l_pow_add. exists u, (v1 ++ v2). split; auto. split.
    + revert Hu. apply l_pow_mono. auto.
    + apply l_pow_add. exists v1, v2. auto.
  - intros Hb w Hw. simpl in Hw. rewrite (Gbf Hb w Hw). apply star_nil.
  - intros _ w [].
Qed.

Lemma between_cat_ee M n m (L : lang) w : 1 <= n -> m_ok M -> (forall w, M B E w -> L w) ->
  l_cat (l_between (M B E) n m) (M E E) w -> exists i, n <= i /\ i <= m /\ l_pow L i w.
Proof.
  intros Hn [Hr Ht] HL (u & v & -> & (i & H1 & H2 & Hu) & Hv). exists i. split; auto. split; [lia|].
  destruct i as [|i]; [lia|]. apply l_pow_S_r in Hu as (u1 & u2 & -> & Hu1 & Hu2).
  apply l_pow_S_r. exists u1, (u2 ++ v). rewrite app_assoc. split; auto. split.
  - revert Hu1. apply l_pow_mono. auto.
  - apply HL. eapply Ht; eauto.
Qed.

Lemma bounded_be M n m (L : lang) w : 1 <= n <= m -> m_ok M -> (forall w, M B E w -> L w) ->
  m_bounded n m M B E w -> exists i, n <= i /\ i <= m /\ l_pow L i w.
Proof.
  intros Hn Hm HL [H|H].
  - eapply between_cat_ee; eauto. lia.
  - exists m. repeat split; auto; [lia|]. revert H. apply l_pow_mono. auto.
Qed.

Lemma good_bounded n m i L M : 1 <= n < m -> m_ok M -> good i L M ->
  good (info_bounded n i) (fun w => exists k, n <= k /\ k <= m /\ l_pow L k w) (m_bounded n m M).
Proof.
  intros Hn Hm [Gbe Gbf Gef Gebz Gbs Ges Gebs Gsl].
  assert (Hst : n = 1 -> forall w, l_star L w -> l_star (fun w => exists k, n <= k /\ k <= m /\ l_pow L k w) w).
  { intros ->. apply star_sub. intros w Hw. apply star_one. exists 1. repeat split; [lia|lia|]. apply l_pow_1; auto. }
  split; cbn [i_exact i_bf i_ef i_ebz i_bs i_es i_ebs i_sl info_bounded]; try discriminate; auto.
  - intros w. apply bounded_be; auto. lia.
  - intros Hb w Hw. simpl in Hw. apply orb_prop in Hb as [Hb|Hb].
    + rewrite (Gbf Hb w Hw). apply star_nil.
    + bsplit. apply Hst; auto. apply Nat.eqb_eq; auto.
  - intros Hb w Hw. simpl in Hw. apply orb_prop in Hb as [Hb|Hb].
    + rewrite (Gef Hb w Hw). apply star_nil.
    + bsplit. apply Hst; auto. apply Nat.eqb_eq; auto.
  - intros _ w [].
Qed.

Lemma good_bounded0 m i L M : 2 <= m -> m_ok M -> i_exact (info_bounded0 i) = true -> good i L M ->
  good (info_bounded0 i) (fun w => exists k, 0 <= k /\ k <= m /\ l_pow L k w) (m_add (m_bounded 1 m M) B E).
Proof.
  intros Hn Hm He [Gbe Gbf Gef Gebz Gbs Ges Gebs Gsl]. simpl in He. bsplit. apply orb_prop in H0.
  set (L' := fun w => exists k, 0 <= k /\ k <= m /\ l_pow L k w).
  assert (Hst : forall w, l_star L w -> l_star L' w).
  { apply star_sub. intros w Hw. apply star_one. exists 1. repeat split; [lia|lia|]. apply l_pow_1; auto. }
  assert (Hz : forall w, ~ m_bounded 1 m M E B w) by (intros w []).
  assert (Hnil : L' []) by (exists 0; repeat split; auto; lia).
  assert (Hone : forall w, L w -> L' w) by (intros w Hw; exists 1; repeat split; [lia|lia|apply l_pow_1; auto]).
  split; cbn [i_exact i_bf i_ef i_ebz i_bs i_es i_ebs i_sl info_bounded0]; try discriminate; auto.
  - intros w Hw. apply m_add_BE_noeb in Hw as [Hw|(u & v & -> & Hu & Hv)]; auto.
    + apply (bounded_be M 1 m L) in Hw as (k & H1 & H2 & H3); auto; [exists k; repeat split; auto; lia|lia].
    + simpl in Hu, Hv. destruct H0 as [Hs|Hb].
      * destruct (Gsl Hs) as [S1 S2]. apply S1 in Hu, Hv.
        destruct Hu as [Hu| ->], Hv as [Hv| ->]; rewrite ?app_nil_r; simpl; auto.
      * bsplit. rewrite (Gbf H0 _ Hu), (Gef H1 _ Hv). exact Hnil.
  - intros Hb w Hw. apply m_add_BE_noeb in Hw as [Hw|(u & v & -> & Hu & Hv)]; auto. exfalso. eapply Hz; eauto.
  - intros Hb w Hw. apply m_add_BE_noeb in Hw as [Hw|(u & v & -> & Hu & Hv)]; auto. exfalso. eapply Hz; eauto.
  - intros _ w Hw. apply m_add_BE_noeb in Hw as [Hw|(u & v & -> & Hu & Hv)]; auto; eapply Hz; eauto.
  - intros Hb w Hw. apply m_add_BE_noeb in Hw; [|exact Hz]. destruct Hw as [Hw|(u & v & -> & Hu & Hv)]; [|exfalso; eapply Hz; eauto].
    apply Hst. apply Gbs; auto.
  - intros Hb w Hw. apply m_add_BE_noeb in Hw; [|exact Hz]. destruct Hw as [Hw|(u & v & -> & Hu & Hv)]; [|exfalso; eapply Hz; eauto].
    apply Hst. apply Ges; auto.
  - intros _ w Hw. apply m_add_BE_noeb in Hw as [Hw|(u & v & -> & Hu & Hv)]; auto; exfalso; eapply Hz; eauto.
Qed.

Lemma good_cat i j L1 L2 M1 M2 : good i L1 M1 -> good j L2 M2 -> good (info_cat i j) (l_cat L1 L2) (m_cat M1 M2).
Proof.
  intros [Gbe Gbf Gef Gebz Gbs Ges Gebs Gsl] [Hbe Hbf Hef Hebz Hbs Hes Hebs Hsl].
  split; cbn [i_exact i_bf i_ef i_ebz i_bs i_es i_ebs i_sl info_cat]; try discriminate; auto.
  - simpl. intros w (u & v & -> & Hu & Hv). exists u, v. auto.
  - intros Hb w Hw. simpl in Hw. rewrite (Gbf Hb w Hw). apply star_nil.
  - intros Hb w Hw. simpl in Hw. rewrite (Hef Hb w Hw). apply star_nil.
  - intros _ w [].
Qed.

Lemma good_ext i (L L' : lang) M : (forall w, L w <-> L' w) -> good i L M -> good i L' M.
Proof.
  intros HL [Gbe Gbf Gef Gebz Gbs Ges Gebs Gsl].
  assert (Hst : forall w, l_star L w -> l_star L' w) by (apply star_sub; intros w Hw; apply star_one, HL; auto).
  split; auto.
  - intros w Hw. apply HL; auto.
  - intros Hs. destruct (Gsl Hs) as [S1 S2]. split.
    + intros x y w Hw. destruct (S1 x y w Hw) as [H|H]; auto. left. apply HL; auto.
    + intros u v Hu Hv. apply HL, S2; apply HL; auto.
Qed.

Lemma good_rep k i L M : wf_rep k -> m_ok M -> (i_exact i = true -> good i L M) ->
  i_exact (info_rep k i) = true -> good (info_rep k i) (rep_lang k L) (rep_mat k M).
Proof.
  intros Hk Hm Hg He.
  assert (Hz := good_zero L).
  destruct k as [| | |n|n|n m]; simpl in *.
  - apply good_opt; auto. apply Hg. bsplit; auto.
  - apply good_star; auto. apply Hg. bsplit; auto.
  - apply good_plus; auto.
  - destruct n as [|[|n]]; [exact Hz| |].
    + eapply good_ext; [|apply Hg; auto]. intros w. symmetry. apply l_pow_1.
    + apply good_exactly; auto. lia.
  - destruct n as [|n].
    + eapply good_ext; [|apply good_star; auto; apply Hg; cbn in He; bsplit; auto].
      intros w. unfold l_star. split; [intros [n H]; exists n; split; [lia|auto]|intros (n & _ & H); eauto].
    + apply good_at_least; auto; [lia|]. apply Hg. cbn in He. bsplit; auto.
  - assert (Hx : forall n, l_pow L n = l_pow L n) by auto.
    destruct n as [|[|n]], m as [|[|m]]; try lia.
    + eapply good_ext; [|exact Hz]. intros w. split; [intros H; exists 0; auto|].
      intros (k & _ & Hk0 & H). replace k with 0 in H by lia. exact H.
    + eapply good_ext; [|apply good_opt; auto; apply Hg; cbn in He; bsplit; auto].
      intros w. split.
      * intros [H|H]; [exists 0; repeat split; auto; lia|exists 1; repeat split; auto; apply l_pow_1; auto].
      * intros (k & _ & Hk1 & H). destruct k as [|[|k]]; [left; exact H|right; apply l_pow_1; exact H|lia].
    + apply good_bounded0; auto; [lia|]. apply Hg. cbn in He. bsplit; auto.
    + eapply good_ext; [|apply Hg; auto]. intros w. split.
      * intros H. exists 1. repeat split; auto. apply l_pow_1; auto.
      * intros (k & H1 & H2 & H). replace k with 1 in H by lia. apply l_pow_1; auto.
    + apply good_bounded; auto. lia.
    + destruct (Nat.eqb_spec (S (S n)) (S (S m))) as [Heq|Hne].
      * eapply good_ext; [|apply good_exactly with (n := S (S n)); auto; lia].
        intros w. split.
        -- intros H. exists (S (S n)). repeat split; auto; lia.
        -- intros (k & H1 & H2 & H). replace (S (S n)) with k by lia. auto.
      * apply good_bounded; auto. lia.
Qed.

Lemma good_hir h : wf_hir h -> supported h -> exact_hir h = true -> good (info_of h) (matches h) (sem h).
Proof.
  unfold exact_hir.
  induction h as [|c|b|rs|rs| | |kd g k IH|k IH|hs IH|hs IH] using hir_ind'; intros Hw Hs He; try (simpl in He; discriminate).
  - apply good_atom.
  - apply good_atom.
  - destruct Hw as [Hk Hw]. apply supported_rep in Hs. apply good_rep; auto. apply sem_ok; auto.
  - apply supported_group in Hs. apply IH; auto.
  - destruct Hw as [Hne Hw]. assert (Hs' : forall h, In h hs -> supported h) by (intros h Hin; eapply supported_concat; eauto). clear Hs.
    simpl in *. revert He. induction IH as [|x l Hx Hl IHl]; intros He; [congruence|].
    destruct Hw as [Hwx Hwl]. destruct l as [|y l].
    + eapply good_ext; [|apply Hx; auto; apply Hs'; simpl; auto]. intros w. symmetry. apply l_cat_eps_r.
    + simpl in He. bsplit. apply good_cat.
      * apply Hx; auto. apply Hs'; simpl; auto.
      * apply IHl; auto; [congruence|]. intros h Hin. apply Hs'; simpl; auto.
  - assert (Hs' : forall h, In h hs -> supported h) by (intros h Hin; eapply supported_alt; eauto). clear Hs.
    simpl in *.
    assert (Hl : forall w, (fix go l := match l with [] => l_none | x :: l' => l_or (sem x B E) (go l') end) hs w <->
                           (fix go l := match l with [] => l_none | x :: l' => l_or (matches x) (go l') end) hs w).
    { revert He. induction IH as [|x l Hx Hl IHl]; intros He w; [tauto|].
      destruct Hw as [Hwx Hwl]. bsplit. unfold l_or.
      rewrite IHl; auto; [|intros h Hin; apply Hs'; simpl; auto].
      assert (sem x B E w <-> matches x w); [|tauto]. split.
      - apply (g_be _ _ _ (Hx Hwx (Hs' x (or_introl eq_refl)) H)).
      - apply matches_sem; auto. apply Hs'; simpl; auto. }
    rewrite He. eapply good_ext; [exact Hl|]. apply good_atom.
Qed.

(** On the decidable class, the recogniser matches exactly the regular expression. *)
Theorem exact_sem h : wf_hir h -> supported h -> exact_hir h = true -> forall w, sem h B E w <-> matches h w.
Proof. intros Hw Hs He w. split; [apply (g_be _ _ _ (good_hir h Hw Hs He))|apply matches_sem; auto]. Qed.
