(** The subset construction does not depend on the addresses (for C84). *)
From Coq Require Import Permutation.
From Verif Require Import Lib Hir NfaPath NfaModel NfaProofs DfaModel DfaEdges PlaceSpec.

Lemma bsorted_ext {K V} `{Ord K} (m m' : list (K * V)) : bsorted m -> bsorted m' -> (forall k, aget eqb k m = aget eqb k m') -> m = m'.
Proof.
  unfold bsorted. intros Hm. revert m'. induction Hm as [|[k v] m Hs IH Hx]; intros m' Hm' E.
  - destruct m' as [|[k' v'] m']; auto. specialize (E k'). simpl in E. rewrite eqb_refl in E. discriminate.
  - destruct m' as [|[k' v'] m']; [specialize (E k); simpl in E; rewrite eqb_refl in E; discriminate|]. inversion Hm' as [|? ? Hs' Hx']; subst.
    assert (Hk : forall (a : K) (l : list (K * V)) b, Forall (fun x => lt a (fst x)) l -> lt b a \/ b = a -> aget eqb b l = None).
    { intros a l b Hl Hb. apply (aget_None _ (eqb_eq (A:=K))). intros Hi. apply in_map_iff in Hi as (x & Ex & Hi). rewrite Forall_forall in Hl. apply Hl in Hi. rewrite Ex in Hi. destruct Hb as [Hb| ->]; [apply (lt_irrefl a); eapply lt_trans; eauto|exact (lt_irrefl _ Hi)]. }
    assert (k = k') as <-.
    { destruct (cmp k k') eqn:C; [apply cmp_eq; auto| |].
      - specialize (E k). simpl in E. rewrite eqb_refl in E. assert (Hn : eqb k k' = false) by (unfold eqb; rewrite C; auto). rewrite Hn in E. rewrite (Hk k' m' k) in E; auto; discriminate.
      - apply cmp_gt_lt in C. specialize (E k'). simpl in E. rewrite eqb_refl in E. assert (Hn : eqb k' k = false) by (unfold eqb; unfold lt in C; rewrite C; auto). rewrite Hn in E. rewrite (Hk k m k') in E; auto; discriminate. }
    assert (v = v') as <- by (specialize (E k); simpl in E; rewrite eqb_refl in E; congruence). f_equal. apply IH; auto. intros a. specialize (E a). simpl in E. destruct (eqb_spec a k) as [E0|Hne]; auto.
    rewrite (Hk k m a), (Hk k m' a); auto.
Qed.

Lemma bupd_map {K V W} `{Ord K} (g : V -> W) k d d' f f' (m : list (K * V)) : d' = g d -> (forall v, f' (g v) = g (f v)) ->
  bupd k d' f' (map (fun x => (fst x, g (snd x))) m) = map (fun x => (fst x, g (snd x))) (bupd k d f m).
Proof. intros -> Hf. induction m as [|[k' v'] m IH]; simpl; [rewrite Hf; auto|]. destruct (cmp k k'); simpl; rewrite ?Hf; auto. rewrite IH. reflexivity. Qed.
Lemma filter_map' {A B} (g : A -> B) p q l : (forall x, q (g x) = p x) -> filter q (map g l) = map g (filter p l).
Proof. intros Hq. induction l; simpl; auto. rewrite Hq. destruct (p a); simpl; rewrite IHl; auto. Qed.

(** *** Renamed sets *)
Section Ren.
  Variable f : nat -> nat.
  Hypothesis inj : forall x y, f x = f y -> x = y.
  Definition ren (s : list nat) : list nat := to_set (map f s).
  Lemma ren_sorted s : sorted (ren s). Proof. apply sorted_to_set. Qed.
  Lemma In_ren y s : In y (ren s) <-> exists x, y = f x /\ In x s.
  Proof. unfold ren. rewrite In_to_set, in_map_iff. split; intros (x & A & B); exists x; split; try exact B; symmetry; exact A. Qed.
  Lemma In_ren_f x s : In (f x) (ren s) <-> In x s.
  Proof. rewrite In_ren. split; [intros (y & E & Hy); apply inj in E; subst; auto|intros; exists x; auto]. Qed.
  Lemma ren_inj s s' : sorted s -> sorted s' -> ren s = ren s' -> s = s'.
  Proof. intros A B E. apply sorted_ext; auto. intros x. rewrite <- (In_ren_f x s), <- (In_ren_f x s'), E. tauto. Qed.
  Lemma ren_eqb s s' : sorted s -> sorted s' -> list_eqb (ren s) (ren s') = list_eqb s s'.
  Proof.
    intros A B. destruct (list_eqb s s') eqn:E; [apply list_eqb_eq in E; subst; apply list_eqb_refl|]. destruct (list_eqb (ren s) (ren s')) eqn:E'; auto. apply list_eqb_eq, ren_inj in E'; auto. subst. rewrite list_eqb_refl in E. discriminate.
  Qed.
  Lemma ren_all a b : ins_all (ren a) (ren b) = ren (ins_all a b).
  Proof.
    apply sorted_ext; [apply sorted_ins_all, ren_sorted|apply ren_sorted|]. intros y. rewrite In_ins_all, !In_ren. split.
    - intros [(x & E & Hx)|(x & E & Hx)]; exists x; rewrite In_ins_all; tauto.
    - intros (x & E & Hx). apply In_ins_all in Hx as [Hx|Hx]; [left|right]; exists x; tauto.
  Qed.
  Lemma ren_nil : ren [] = []. Proof. reflexivity. Qed.
  Lemma mem_ren x s : mem (f x) (ren s) = mem x s.
  Proof. apply Bool.eq_iff_eq_true. rewrite !mem_In. apply In_ren_f. Qed.
  Lemma perm_ren s : sorted s -> Permutation (ren s) (map f s).
  Proof.
    intros Hs. apply NoDup_Permutation.
    - apply sorted_NoDup, ren_sorted.
    - apply FinFun.Injective_map_NoDup; [exact inj|apply sorted_NoDup; auto].
    - intros y. unfold ren. apply In_to_set.
  Qed.

  Definition renE (em : emap) : emap := map (fun x => (fst x, ren (snd x))) em.
  Definition renB (m : bmap) : bmap := map (fun x => (fst x, renE (snd x))) m.
  Lemma add_edge_ren r s m : add_edge r (ren s) (renB m) = renB (add_edge r s m).
  Proof. unfold add_edge, renB. apply bupd_map; [reflexivity|]. intros em. apply (bupd_map ren); [reflexivity|]. intros v. apply ren_all. Qed.
  Lemma align_ren rest : forall cur, align (fst cur, renE (snd cur)) (renB rest) = renB (align cur rest).
  Proof.
    induction rest as [|[upper nxt] rest IH]; intros [b em]; [reflexivity|]. cbn [renB map align fst snd]. fold (renB rest).
    assert (Hg : filter (fun kv : N * list nat => N.ltb upper (fst kv)) (renE em) = renE (filter (fun kv => N.ltb upper (fst kv)) em)) by (apply filter_map'; reflexivity).
    assert (Hk : filter (fun kv : N * list nat => negb (N.ltb upper (fst kv))) (renE em) = renE (filter (fun kv => negb (N.ltb upper (fst kv))) em)) by (apply filter_map'; reflexivity).
    rewrite Hg, Hk. clear Hg Hk.
    set (greater := filter (fun kv => N.ltb upper (fst kv)) em). set (keep := filter (fun kv => negb (N.ltb upper (fst kv))) em).
    assert (H1 : forall g s, fold_left (fun s (kv : N * list nat) => ins_all (snd kv) s) (renE g) (ren s) = ren (fold_left (fun s kv => ins_all (snd kv) s) g s)).
    { induction g as [|x g IHg]; intros s; simpl; auto. rewrite ren_all. apply IHg. }
    assert (H2 : forall g m, fold_left (fun m (kv : N * list nat) => bupd (fst kv) [] (fun old => ins_all (snd kv) old) m) (renE g) (renE m) = renE (fold_left (fun m kv => bupd (fst kv) [] (fun old => ins_all (snd kv) old) m) g m)).
    { induction g as [|x g IHg]; intros m; simpl; auto. rewrite <- IHg. f_equal. apply (bupd_map ren); [reflexivity|]. intros v. apply ren_all. }
    specialize (H1 greater []). rewrite ren_nil in H1. rewrite H1, H2.
    assert (H3 : bupd upper [] (fun old => ins_all (ren (fold_left (fun s kv => ins_all (snd kv) s) greater [])) old) (renE keep) = renE (bupd upper [] (fun old => ins_all (fold_left (fun s kv => ins_all (snd kv) s) greater []) old) keep)).
    { apply (bupd_map ren); [reflexivity|]. intros v. apply ren_all. }
    rewrite H3. pose proof (IH (upper, nxt)) as I1. cbn [fst snd] in I1. pose proof (IH (upper, fold_left (fun m kv => bupd (fst kv) [] (fun old => ins_all (snd kv) old) m) greater nxt)) as I2. cbn [fst snd] in I2.
    destruct greater; [exact (f_equal (cons (b, renE em)) I1)|exact (f_equal (cons _) I2)].
  Qed.
  Lemma align_by_ren m : align_by_begin (renB m) = renB (align_by_begin m).
  Proof. destruct m as [|x m]; [reflexivity|]. exact (align_ren m x). Qed.
  Definition renR (l : list (crange * list nat)) := map (fun x : crange * list nat => (fst x, ren (snd x))) l.
  Lemma split_ren em : forall b, split_ranges b (renE em) = (renR (fst (split_ranges b em)), ren (snd (split_ranges b em))).
  Proof. induction em as [|[e s] em IH]; intros b; simpl; auto. fold (renE em). rewrite IH. destruct (split_ranges e em) as [rs sum]. simpl. rewrite ren_all. reflexivity. Qed.
  Lemma split_by_ren m : split_by_end (renB m) = renR (split_by_end m).
  Proof.
    unfold split_by_end, renB, renR. rewrite map_map, concat_map, map_map. f_equal. apply map_ext. intros [b em]. cbn [fst snd]. rewrite split_ren. reflexivity.
  Qed.

  (** *** The table from sets to positions *)
  Definition renT (l : list (list nat * nat)) := map (fun x => (ren (fst x), snd x)) l.
  Definition keys_ok (l : list (list nat * nat)) := Forall (fun x => sorted (fst x)) l.
  Lemma ref_ren l s : keys_ok l -> sorted s -> ref_of (renT l) (ren s) = ref_of l s.
  Proof. unfold ref_of, keys_ok. intros Hl Hs. induction Hl as [|[k v] l Hk Hl IH]; simpl; auto. rewrite ren_eqb by auto. rewrite IH. reflexivity. Qed.
  Lemma aset_ren l s v : keys_ok l -> sorted s -> aset list_eqb (ren s) v (renT l) = renT (aset list_eqb s v l).
  Proof. intros Hl Hs. induction Hl as [|[k v'] l Hk Hl IH]; simpl; auto. simpl in Hk. rewrite ren_eqb by auto. destruct (list_eqb s k); simpl; auto. rewrite <- IH. reflexivity. Qed.
  Lemma keys_aset l s v : keys_ok l -> sorted s -> keys_ok (aset list_eqb s v l).
  Proof. unfold keys_ok. induction l as [|[k v'] l IH]; simpl; intros Hl Hs; [repeat constructor; auto|]. inversion Hl; subst. destruct (list_eqb s k); constructor; auto. Qed.

  Lemma mark_ren ends refs : mark_all (map f ends) (renT refs) = mark_all ends refs.
  Proof.
    unfold mark_all. assert (G : forall a, fold_left (mark_set (map f ends)) (renT refs) a = fold_left (mark_set ends) refs a); [|apply G].
    induction refs as [|[s i] refs IH]; intros a; cbn [renT map fold_left]; auto. fold (renT refs). rewrite IH. f_equal. unfold mark_set. cbn [fst snd]. rewrite map_length.
    assert (Hc : forall n, combine (map f ends) (seq n (length ends)) = map (fun x => (f (fst x), snd x)) (combine ends (seq n (length ends)))).
    { clear. induction ends as [|e ends IH]; intros n; simpl; auto. rewrite IH. reflexivity. }
    rewrite Hc, <- map_rev. generalize (rev (combine ends (seq 0 (length ends)))). intros l. revert a. induction l as [|x l IHl]; intros a; cbn [map fold_left]; auto. rewrite <- IHl. f_equal. unfold mark_one. cbn [fst snd]. rewrite mem_ren. reflexivity.
  Qed.
End Ren.

(** *** The order in which the edges are collected does not matter *)
Definition bm_fine (m : bmap) : Prop := bsorted m /\ forall b em, In (b, em) m -> bsorted em /\ forall e s, In (e, s) em -> sorted s.
Lemma fine_nil : bm_fine []. Proof. split; [constructor|intros ? ? []]. Qed.
Definition em_fine (em : emap) : Prop := bsorted em /\ forall e s, In (e, s) em -> sorted s.
Lemma em_fine_upd em e s : em_fine em -> em_fine (bupd e [] (fun old => ins_all s old) em).
Proof.
  intros [A B]. split; [apply bsorted_bupd; auto|]. intros e' s' Hi. apply In_bupd in Hi as [[-> ->]|[_ Hi]]; eauto. apply sorted_ins_all. destruct (aget eqb e em) eqn:E; [|constructor]. apply aget_In in E; [|apply eqb_eq]. eauto.
Qed.
Lemma fine_at m b : bm_fine m -> em_fine (match aget eqb b m with Some em => em | None => [] end).
Proof. intros [A B]. destruct (aget eqb b m) eqn:E; [apply aget_In in E; [|apply eqb_eq]; apply (B _ _ E)|split; [constructor|intros ? ? []]]. Qed.
Lemma fine_add m r s : bm_fine m -> bm_fine (add_edge r s m).
Proof.
  intros H. pose proof H as [A B]. split; [apply bsorted_bupd; auto|]. intros b em Hi. apply In_bupd in Hi as [[-> ->]|[_ Hi]]; auto; [|apply (B _ _ Hi)]. apply em_fine_upd, fine_at; auto.
Qed.
Lemma all_swap a b s : sorted s -> ins_all a (ins_all b s) = ins_all b (ins_all a s) :> list nat.
Proof. intros Hs. apply sorted_ext; try (repeat apply sorted_ins_all; auto). intros x. rewrite !In_ins_all. tauto. Qed.
Lemma em_swap em e s e' s' : em_fine em ->
  bupd e [] (fun old => ins_all s old) (bupd e' [] (fun old => ins_all s' old) em) = bupd e' [] (fun old => ins_all s' old) (bupd e [] (fun old => ins_all s old) em).
Proof.
  intros [A B]. apply bsorted_ext; try (repeat apply bsorted_bupd; auto). intros k. rewrite !aget_bupd by (repeat apply bsorted_bupd; auto).
  assert (Hs : sorted (match aget eqb e em with Some v => v | None => [] end)) by (destruct (aget eqb e em) eqn:E; [apply aget_In in E; [|apply eqb_eq]; eauto|constructor]).
  destruct (eqb_spec k e) as [E1|H1], (eqb_spec k e') as [E2|H2]; auto.
  - rewrite <- E1 in Hs. rewrite <- E1, <- E2, !eqb_refl. f_equal. apply all_swap. auto.
  - destruct (eqb_spec e e'); [congruence|]. reflexivity.
  - destruct (eqb_spec e' e); [congruence|]. reflexivity.
Qed.
Lemma add_swap m r s r' s' : bm_fine m -> add_edge r s (add_edge r' s' m) = add_edge r' s' (add_edge r s m).
Proof.
  intros H. pose proof H as [A B]. unfold add_edge. apply bsorted_ext; try (repeat apply bsorted_bupd; auto). intros k. rewrite !aget_bupd by (repeat apply bsorted_bupd; auto).
  destruct (eqb_spec k (fst r)) as [E1|H1], (eqb_spec k (fst r')) as [E2|H2]; auto.
  - rewrite <- E1, <- E2. rewrite !eqb_refl. f_equal. apply em_swap. apply fine_at. auto.
  - destruct (eqb_spec (fst r) (fst r')); [congruence|]. reflexivity.
  - destruct (eqb_spec (fst r') (fst r)); [congruence|]. reflexivity.
Qed.
Definition adds (es : list (crange * list nat)) (m : bmap) : bmap := fold_left (fun m e => add_edge (fst e) (snd e) m) es m.
Lemma fine_adds es : forall m, bm_fine m -> bm_fine (adds es m).
Proof. induction es; intros m H; simpl; auto. apply IHes, fine_add. auto. Qed.
Lemma adds_perm es es' : Permutation es es' -> forall m, bm_fine m -> adds es m = adds es' m.
Proof.
  induction 1; intros m Hm; auto.
  - simpl. apply IHPermutation, fine_add. auto.
  - simpl. f_equal. apply add_swap. auto.
  - rewrite IHPermutation1 by auto. apply IHPermutation2. auto.
Qed.
