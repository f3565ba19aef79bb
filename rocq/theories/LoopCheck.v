(** * The certificate of LoopSpec.v is sound *)
From Coq Require Import List Arith Lia Bool.
From Verif Require Import Lib Grammar LrSets GramFacts LoopSpec.
Import ListNotations.

Lemma split3 {A} (l1 m l2 a b : list A) X : l1 ++ m ++ l2 = a ++ X :: b ->
  (exists c, l1 = a ++ X :: c /\ b = c ++ m ++ l2) \/
  (exists c d, m = c ++ X :: d /\ a = l1 ++ c /\ b = d ++ l2) \/
  (exists c, l2 = c ++ X :: b /\ a = l1 ++ m ++ c).
Proof.
  revert a. induction l1 as [|y l1 IH]; intros a E; simpl in E.
  - right. revert a E. induction m as [|y m IH]; intros a E; simpl in E.
    + right. exists a. auto.
    + destruct a as [|z a]; simpl in E; injection E as -> E.
      * left. exists [], m. auto.
      * destruct (IH a E) as [(c & d & -> & E2 & ->)|(c & E1 & ->)].
        -- left. simpl in E2. subst a. exists (z :: c), d. auto.
        -- right. exists c. auto.
  - destruct a as [|z a]; simpl in E; injection E as -> E.
    + left. exists l1. auto.
    + destruct (IH a E) as [(c & -> & ->)|[(c & d & -> & -> & ->)|(c & E1 & ->)]]; [left; exists c; auto|right; left; exists c, d; auto|right; right; exists c; auto].
Qed.

Section Check.
  Variables (rs : list rule) (nl : list nat) (rank1 rank2 : nat -> nat).
  Hypothesis Hnl : nl_check rs nl = true.
  Notation em l := (forallb (empty_sym nl) l).

  Lemma nl_rule r : In r rs -> em (r_rhs r) = true -> empty_sym nl (NT (r_lhs r)) = true.
  Proof.
    intros Hr He. pose proof Hnl as H. unfold nl_check in H. rewrite forallb_forall in H. specialize (H r Hr). rewrite He in H. exact H.
  Qed.
  Lemma null_em : (forall X w, der rs X w -> w = [] -> empty_sym nl X = true) /\ (forall l w, ders rs l w -> w = [] -> em l = true).
  Proof.
    apply der_ders_ind.
    - discriminate.
    - intros r w Hr _ IH E. apply nl_rule; auto.
    - auto.
    - intros X l u v _ IH1 _ IH2 E. apply app_eq_nil in E as [-> ->]. simpl. rewrite IH1, IH2; auto.
  Qed.
  Lemma em_app a b : em (a ++ b) = true <-> em a = true /\ em b = true.
  Proof. rewrite forallb_app. apply andb_true_iff. Qed.

  Lemma places_all f l : forall l1, places f l1 l = true -> forall a B b, l = a ++ NT B :: b -> f (l1 ++ a) B b = true.
  Proof.
    induction l as [|X l IH]; intros l1 H a B b E; [destruct a; discriminate|]. cbn [places] in H. apply andb_prop in H as [H1 H2].
    destruct a as [|Y a]; simpl in E; injection E as -> E.
    - subst l. rewrite app_nil_r. exact H1.
    - specialize (IH _ H2 a B b E). rewrite <- app_assoc in IH. exact IH.
  Qed.
  Lemma rank1_rule : cycle_check rs nl rank1 = true -> forall r a B b, In r rs -> r_rhs r = a ++ NT B :: b -> em a = true ->
    em b = true -> rank1 B < rank1 (r_lhs r).
  Proof.
    intros Hck r a B b Hr E Ha Hb. unfold cycle_check in Hck. rewrite forallb_forall in Hck. specialize (Hck r Hr). cbv beta in Hck.
    apply places_all with (a := a) (B := B) (b := b) in Hck; auto. simpl in Hck. rewrite Ha, Hb in Hck. apply Nat.ltb_lt. exact Hck.
  Qed.
  Lemma rank2_rule : left_check rs nl rank2 = true -> forall r a B b, In r rs -> r_rhs r = a ++ NT B :: b -> em a = true ->
    rank2 B <= rank2 (r_lhs r) /\ (a <> [] -> rank2 B < rank2 (r_lhs r)).
  Proof.
    intros Hck r a B b Hr E Ha. unfold left_check in Hck. rewrite forallb_forall in Hck. specialize (Hck r Hr). cbv beta in Hck.
    apply places_all with (a := a) (B := B) (b := b) in Hck; auto. simpl in Hck. rewrite Ha in Hck. simpl in Hck. split.
    - destruct a; [apply Nat.leb_le; exact Hck|]. apply Nat.ltb_lt in Hck. unfold Nat.lt in *. lia.
    - intros Hne. destruct a; [congruence|]. apply Nat.ltb_lt. exact Hck.
  Qed.

  Lemma rewr_rank1 : cycle_check rs nl rank1 = true -> forall l l', rewr rs l l' -> forall A, l' = [NT A] ->
    exists a B b, l = a ++ NT B :: b /\ em a = true /\ em b = true /\ rank1 A <= rank1 B.
  Proof.
    intros Hck. induction 1 as [l|l1 r l2 l' Hr H IH]; intros A ->.
    - exists [], A, []. auto.
    - destruct (IH A eq_refl) as (a & B & b & E & Ha & Hb & Hle). apply split3 in E as [(c & -> & ->)|[(c & d & E & -> & ->)|(c & -> & ->)]].
      + rewrite !em_app in Hb. destruct Hb as (H1 & H2 & H3). exists a, B, (c ++ NT (r_lhs r) :: l2). rewrite <- app_assoc. split; auto. split; auto. split; auto.
        apply em_app. split; auto. cbn [forallb]. rewrite nl_rule by auto. exact H3.
      + apply em_app in Ha as [Ha Hc]. apply em_app in Hb as [Hd Hb]. pose proof (rank1_rule Hck r c B d Hr E Hc Hd) as Hx.
        exists l1, (r_lhs r), l2. split; auto. split; auto. split; auto. unfold Nat.lt in *. lia.
      + rewrite !em_app in Ha. destruct Ha as (H1 & H2 & H3). exists (l1 ++ NT (r_lhs r) :: c), B, b. rewrite <- app_assoc. split; auto. split; [|split; auto].
        apply em_app. split; auto. cbn [forallb]. rewrite nl_rule by auto. exact H3.
  Qed.
  Lemma rewr_rank2 : left_check rs nl rank2 = true -> forall l l', rewr rs l l' -> forall a A b, l' = a ++ NT A :: b -> em a = true ->
    exists c B d, l = c ++ NT B :: d /\ em c = true /\ rank2 A <= rank2 B /\ (a <> [] -> c <> [] \/ rank2 A < rank2 B).
  Proof.
    intros Hck. induction 1 as [l|l1 r l2 l' Hr H IH]; intros a A b E' Ha.
    - exists a, A, b. auto.
    - destruct (IH a A b E' Ha) as (c & B & d & E & Hc & Hle & Hst). apply split3 in E as [(x & -> & ->)|[(x & y & E & -> & ->)|(x & -> & ->)]].
      + exists c, B, (x ++ NT (r_lhs r) :: l2). rewrite <- app_assoc. auto.
      + apply em_app in Hc as [Hc Hx]. destruct (rank2_rule Hck r x B y Hr E Hx) as (G1 & G2). exists l1, (r_lhs r), l2. split; auto. split; auto. split; [lia|].
        intros Hne. destruct (Hst Hne) as [Hn|Hlt]; [|right; unfold Nat.lt in *; lia]. destruct l1 as [|z l1]; [|left; discriminate]. right. simpl in Hn.
        specialize (G2 Hn). unfold Nat.lt in *. lia.
      + rewrite !em_app in Hc. destruct Hc as (H1 & H2 & H3). exists (l1 ++ NT (r_lhs r) :: x), B, d. rewrite <- app_assoc. split; auto. split; [|split; auto].
        * apply em_app. split; auto. cbn [forallb]. rewrite nl_rule by auto. exact H3.
        * intros _. left. destruct l1; discriminate.
  Qed.

  Lemma cycle_check_sound : cycle_check rs nl rank1 = true -> forall A, ~ cyclic rs A.
  Proof.
    intros Hck A (r & Hr & <- & Hw). destruct (rewr_rank1 Hck _ _ Hw _ eq_refl) as (a & B & b & E & Ha & Hb & Hle).
    pose proof (rank1_rule Hck r a B b Hr E Ha Hb). unfold Nat.lt in *. lia.
  Qed.
  Lemma left_check_sound : left_check rs nl rank2 = true -> forall A, ~ hidden_left_recursive rs A.
  Proof.
    intros Hck A (r & l1 & l2 & Hr & <- & Hw & Hne & Hn). apply (proj2 null_em) in Hn; auto.
    destruct (rewr_rank2 Hck _ _ Hw _ _ _ eq_refl Hn) as (c & B & d & E & Hc & Hle & Hst). specialize (Hst Hne).
    destruct (rank2_rule Hck r c B d Hr E Hc) as (G1 & G2). destruct Hst as [Hst|Hst]; [specialize (G2 Hst)|]; unfold Nat.lt in *; lia.
  Qed.
End Check.
Lemma loop_check_sound rs nl rank1 rank2 : loop_check rs nl rank1 rank2 = true -> forall start, loop_free rs start.
Proof.
  intros H start A _. apply andb_prop in H as [H H2]. apply andb_prop in H as [H H1]. split; [eapply cycle_check_sound|eapply left_check_sound]; eauto.
Qed.
