(** Paths in labelled graphs: generic lemmas used for the NFA construction. *)
From Verif Require Import Lib Hir.

Definition rel := nat -> option N -> nat -> Prop.

Inductive path (R : rel) : nat -> word -> nat -> Prop :=
| p_nil x : path R x [] x
| p_eps x y z w : R x None y -> path R y w z -> path R x w z
| p_chr x c y w z : R x (Some c) y -> path R y w z -> path R x (c :: w) z.

Lemma path_app R x y z u v : path R x u y -> path R y v z -> path R x (u ++ v) z.
Proof. induction 1; simpl; intros; eauto using path. Qed.

Lemma path_mono (R R' : rel) : (forall x l y, R x l y -> R' x l y) -> forall x w y, path R x w y -> path R' x w y.
Proof. induction 2; eauto using path. Qed.

Lemma path_ext (R R' : rel) : (forall x l y, R x l y <-> R' x l y) -> forall x w y, path R x w y <-> path R' x w y.
Proof. intros H x w y; split; apply path_mono; firstorder. Qed.

Definition radd (R : rel) (u v : nat) : rel := fun x l y => R x l y \/ (x = u /\ l = None /\ y = v).

Inductive addp (R : rel) (u v x : nat) : nat -> word -> Prop :=
| ap_base w y : path R x w y -> addp R u v x y w
| ap_step w1 w2 y : addp R u v x u w1 -> path R v w2 y -> addp R u v x y (w1 ++ w2).

Lemma addp_app R u v x y z w1 w2 : addp R u v x y w1 -> path R y w2 z -> addp R u v x z (w1 ++ w2).
Proof.
  intros H H2; destruct H as [w y H|w1 w' y H H'].
  - apply ap_base. eapply path_app; eauto.
  - rewrite <- app_assoc. apply ap_step; auto. eapply path_app; eauto.
Qed.

Lemma path_radd_r R u v x y w : path (radd R u v) x w y ->
  forall x0 w0, addp R u v x0 x w0 -> addp R u v x0 y (w0 ++ w).
Proof.
  induction 1 as [x|x y z w Hr Hp IH|x c y w z Hr Hp IH]; intros x0 w0 Ha.
  - rewrite app_nil_r; auto.
  - apply IH. destruct Hr as [Hr|(-> & _ & ->)].
    + rewrite <- (app_nil_r w0). eapply addp_app; eauto. eapply p_eps; eauto. constructor.
    + rewrite <- (app_nil_r w0). apply ap_step; auto. constructor.
  - replace (w0 ++ c :: w) with ((w0 ++ [c]) ++ w) by (rewrite <- app_assoc; reflexivity).
    apply IH. destruct Hr as [Hr|(_ & ? & _)]; [|discriminate].
    eapply addp_app; eauto. eapply p_chr; eauto. constructor.
Qed.

Lemma path_radd R u v x w y : path (radd R u v) x w y <-> addp R u v x y w.
Proof.
  split.
  - intros H. apply (path_radd_r _ _ _ _ _ _ H x []). constructor. constructor.
  - assert (Hm : forall a w b, path R a w b -> path (radd R u v) a w b).
    { apply path_mono. intros; left; auto. }
    induction 1 as [w y H|w1 w2 y H IH H2]; auto.
    eapply path_app; eauto. eapply p_eps; [right; eauto|auto].
Qed.

(** Adding an edge [u -> v] when [v] does not reach [u]: it is used at most once. *)
Lemma path_radd_once R u v x w y : (forall w, ~ path R v w u) ->
  path (radd R u v) x w y <->
  path R x w y \/ exists w1 w2, w = w1 ++ w2 /\ path R x w1 u /\ path R v w2 y.
Proof.
  intros Hn. rewrite path_radd. split.
  - intros H. destruct H as [w y H|w1 w2 y H H2]; auto.
    remember u as z eqn:Ez in H at 2. destruct H as [w1 z H|w1 w3 z H H3]; subst.
    + right. eauto.
    + exfalso. eapply Hn; eauto.
  - intros [H|(w1 & w2 & -> & H1 & H2)]; [apply ap_base; auto|].
    apply ap_step; auto. apply ap_base; auto.
Qed.

Definition closed (R : rel) (P : nat -> Prop) : Prop := forall x l y, P x -> R x l y -> P y.

Lemma path_closed R P x w y : closed R P -> P x -> path R x w y -> P y.
Proof. intros Hc Hx H. induction H; eauto. Qed.

Lemma path_frame_sub (R R' : rel) (P : nat -> Prop) : closed R P -> (forall x l y, P x -> R x l y -> R' x l y) ->
  forall x w y, P x -> path R x w y -> path R' x w y.
Proof. intros Hc He x w y Hx H. induction H; eauto 6 using path. Qed.

Lemma closed_agree (R R' : rel) (P : nat -> Prop) : closed R P -> (forall x l y, P x -> (R x l y <-> R' x l y)) -> closed R' P.
Proof. intros Hc He x l y Hx Hr. apply He in Hr; eauto. Qed.

Lemma path_frame (R R' : rel) (P : nat -> Prop) : closed R P -> (forall x l y, P x -> (R x l y <-> R' x l y)) ->
  forall x w y, P x -> (path R x w y <-> path R' x w y).
Proof.
  intros Hc He x w y Hx. split; intros H.
  - eapply path_frame_sub; eauto. intros. apply He; auto.
  - apply path_frame_sub with (R := R') (P := P); auto.
    + eapply closed_agree; eauto.
    + intros ? ? ? ? Hr. apply He; auto.
Qed.

(** A graph copied through an injective renaming [f]. *)
Lemma path_iso (R R' : rel) (P : nat -> Prop) (f : nat -> nat) :
  closed R P ->
  (forall x l z, P x -> (R' (f x) l z <-> exists y, z = f y /\ R x l y)) ->
  forall x w z, P x -> (path R' (f x) w z <-> exists y, z = f y /\ path R x w y).
Proof.
  intros Hc He x w z Hx. split.
  - intros H. remember (f x) as a eqn:Ea. revert x Hx Ea.
    induction H as [a|a b z w Hr Hp IH|a c b w z Hr Hp IH]; intros x Hx ->.
    + eauto using path.
    + apply He in Hr as (y & -> & Hr); auto.
      destruct (IH y) as (y' & -> & Hy'); eauto. eauto using path.
    + apply He in Hr as (y & -> & Hr); auto.
      destruct (IH y) as (y' & -> & Hy'); eauto. eauto using path.
  - intros (y & -> & H). revert Hx. induction H; intros Hx.
    + constructor.
    + eapply p_eps; [apply He; eauto|]. apply IHpath; eauto.
    + eapply p_chr; [apply He; eauto|]. apply IHpath; eauto.
Qed.

(** Language laws *)
Lemma l_cat_ext A A' B B' : (forall w, A w <-> A' w) -> (forall w, B w <-> B' w) -> forall w, l_cat A B w <-> l_cat A' B' w.
Proof. unfold l_cat; firstorder. Qed.
Lemma l_cat_assoc A B C w : l_cat (l_cat A B) C w <-> l_cat A (l_cat B C) w.
Proof.
  unfold l_cat; split.
  - intros (u & v & -> & (u1 & u2 & -> & Ha & Hb) & Hc). exists u1, (u2 ++ v). rewrite app_assoc. eauto 8.
  - intros (u & v & -> & Ha & (u1 & u2 & -> & Hb & Hc)). exists (u ++ u1), u2. rewrite app_assoc. eauto 8.
Qed.
Lemma l_cat_eps_r A w : l_cat A l_eps w <-> A w.
Proof.
  unfold l_cat, l_eps; split; [intros (u & v & -> & Ha & ->); rewrite app_nil_r; auto|].
  intros H; exists w, []; rewrite app_nil_r; auto.
Qed.
Lemma l_cat_eps_l A w : l_cat l_eps A w <-> A w.
Proof. unfold l_cat, l_eps; split; [intros (u & v & -> & -> & Ha); auto|]. intros H; exists [], w; auto. Qed.
Lemma l_pow_ext A A' n : (forall w, A w <-> A' w) -> forall w, l_pow A n w <-> l_pow A' n w.
Proof. intros H. induction n as [|n IH]; simpl; intros w; [tauto|]. apply l_cat_ext; auto. Qed.
Lemma l_pow_mono (A A' : lang) n : (forall w, A w -> A' w) -> forall w, l_pow A n w -> l_pow A' n w.
Proof.
  intros H. induction n as [|n IH]; simpl; intros w; [auto|].
  intros (u & v & -> & Hu & Hv). exists u, v; auto.
Qed.
Lemma l_pow_1 A w : l_pow A 1 w <-> A w.
Proof. simpl. apply l_cat_eps_r. Qed.
Lemma l_pow_add A n m w : l_pow A (n + m) w <-> l_cat (l_pow A n) (l_pow A m) w.
Proof.
  revert w; induction n as [|n IH]; simpl; intros w; [rewrite l_cat_eps_l; tauto|].
  rewrite l_cat_assoc. apply l_cat_ext; auto. tauto.
Qed.
Lemma l_pow_S_r A n w : l_pow A (S n) w <-> l_cat (l_pow A n) A w.
Proof.
  replace (S n) with (n + 1) by lia. rewrite l_pow_add. apply l_cat_ext; [tauto|]. apply l_pow_1.
Qed.
