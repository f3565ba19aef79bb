(** The NFA construction computes exactly the languages described by [NfaSem.sem]. *)
From Verif Require Import Lib Hir NfaPath NfaSem NfaModel.

Definition in_range (c : N) (r : crange) : Prop := (fst r <= c)%N /\ (c < snd r)%N.

Definition nedge (n : nnode) (l : option N) (q : nat) : Prop :=
  match l with
  | None => In q (n_eps n)
  | Some c => exists r s, In (r, s) (n_next n) /\ in_range c r /\ In q s
  end.

Definition hedge (h : heap) : rel := fun p l q => exists n, nth_error h p = Some n /\ nedge n l q.

Definition ok_node (n : nnode) : Prop := forall r s, In (r, s) (n_next n) -> (fst r < snd r)%N /\ s <> [].
Definition okh (h : heap) : Prop := Forall ok_node h.

Definition ext (h h' : heap) : Prop := exists t, h' = h ++ t.
Definition agree (k : nat) (h h' : heap) : Prop :=
  length h <= length h' /\ forall p, p < k -> nth_error h' p = nth_error h p.

Definition pt (n : nfa) (s : side) : nat := match s with B => nfa_begin n | E => nfa_end n end.

Record wfn (lo : nat) (h : heap) (n : nfa) : Prop := {
  wf_nodup : NoDup (nfa_nodes n);
  wf_range : forall p, In p (nfa_nodes n) -> lo <= p < length h;
  wf_closed : closed (hedge h) (fun p => In p (nfa_nodes n));
  wf_begin : In (nfa_begin n) (nfa_nodes n);
  wf_end : In (nfa_end n) (nfa_nodes n)
}.

Lemma wf_pt lo h n s : wfn lo h n -> In (pt n s) (nfa_nodes n).
Proof. intros [? ? ? ? ?]; destruct s; auto. Qed.

Definition mat_of (h : heap) (n : nfa) : mat := fun x y w => path (hedge h) (pt n x) w (pt n y).

Lemma agree_refl k h : agree k h h. Proof. split; auto. Qed.
Lemma agree_trans k k' h1 h2 h3 : agree k h1 h2 -> agree k' h2 h3 -> k <= k' -> agree k h1 h3.
Proof. intros [H1 H2] [H3 H4] Hk. split; [lia|]. intros p Hp. rewrite H4 by lia. auto. Qed.
Lemma agree_app k h t : k <= length h -> agree k h (h ++ t).
Proof. intros Hk. split; [rewrite app_length; lia|]. intros p Hp. apply nth_error_app1. lia. Qed.
Lemma add_eps_length h p q : length (add_eps h p q) = length h.
Proof. apply upd_nth_length. Qed.
Lemma agree_add_eps k h p q : k <= p -> agree k h (add_eps h p q).
Proof.
  intros Hk. split; [rewrite add_eps_length; lia|]. intros x Hx. unfold add_eps.
  rewrite nth_error_upd_nth. destruct (Nat.eqb_spec p x); [lia|reflexivity].
Qed.

Lemma hedge_agree h h' p : nth_error h' p = nth_error h p -> forall l q, hedge h p l q <-> hedge h' p l q.
Proof. intros He l q. unfold hedge. rewrite He. tauto. Qed.

Lemma hedge_add_eps h u v : u < length h -> forall x l y, hedge (add_eps h u v) x l y <-> radd (hedge h) u v x l y.
Proof.
  intros Hu x l y. unfold hedge, radd, add_eps.
  rewrite nth_error_upd_nth. destruct (Nat.eqb_spec u x) as [->|Hne].
  - destruct (nth_error h x) as [n|] eqn:En; [|apply nth_error_None in En; lia]. simpl. split.
    + intros (n' & Hn & He). inversion Hn; subst; clear Hn.
      destruct l as [c|]; simpl in *.
      * left. eauto.
      * apply In_ins in He as [->|He]; [right; auto|left; eauto].
    + intros [(n' & Hn & He)|(_ & -> & ->)].
      * inversion Hn; subst. eexists; split; eauto. destruct l; simpl in *; auto. apply In_ins; auto.
      * eexists; split; eauto. simpl. apply In_ins; auto.
  - split; [intros H; left; exact H|]. intros [H|(-> & _)]; [exact H|congruence].
Qed.

Lemma okh_add_eps h u v : okh h -> okh (add_eps h u v).
Proof.
  unfold okh, add_eps. revert u; induction h as [|n h IH]; intros u H; destruct u; simpl; auto;
    inversion H; subst; constructor; auto.
Qed.

(** closedness and paths survive changes outside the node set *)
Lemma wfn_agree lo h h' n : wfn lo h n -> length h <= length h' ->
  (forall p, In p (nfa_nodes n) -> nth_error h' p = nth_error h p) -> wfn lo h' n.
Proof.
  intros [H1 H2 H3 H4 H5] Hl Ha. split; auto.
  - intros p Hp. apply H2 in Hp. lia.
  - eapply closed_agree; [exact H3|]. intros x l y Hx. apply hedge_agree. auto.
Qed.

Lemma mat_agree lo h h' n : wfn lo h n ->
  (forall p, In p (nfa_nodes n) -> nth_error h' p = nth_error h p) ->
  forall x y w, mat_of h n x y w <-> mat_of h' n x y w.
Proof.
  intros Hw Ha x y w. unfold mat_of.
  apply path_frame with (P := fun p => In p (nfa_nodes n)).
  - apply (wf_closed _ _ _ Hw).
  - intros p l q Hp. apply hedge_agree. auto.
  - eapply wf_pt; eauto.
Qed.

Lemma wfn_weaken lo lo' h n : wfn lo h n -> lo' <= lo -> wfn lo' h n.
Proof. intros [H1 H2 H3 H4 H5] Hl. split; auto. intros p Hp. apply H2 in Hp. lia. Qed.

(** *** nmapM *)
Lemma nbind_Ok {A B} (x : nres A) (f : A -> nres B) b :
  nbind x f = NOk b -> exists a, x = NOk a /\ f a = NOk b.
Proof. destruct x; simpl; intros H; try discriminate; eauto. Qed.

Ltac ninv :=
  repeat match goal with
  | H : nbind _ _ = NOk _ |- _ => apply nbind_Ok in H; destruct H as [? [? H]]
  | H : NOk _ = NOk _ |- _ => inversion H; clear H; subst
  | H : (let (_, _) := ?p in _) = NOk _ |- _ => destruct p
  end.

Lemma nmapM_ok {A B} (f : A -> nres B) (R : A -> B -> Prop) l :
  (forall a, In a l -> exists b, f a = NOk b /\ R a b) ->
  exists bs, nmapM f l = NOk bs /\ Forall2 R l bs.
Proof.
  induction l as [|a l IH]; simpl; intros H; [eauto|].
  destruct (H a) as (b & Hb & Hr); auto. destruct IH as (bs & Hbs & Hf); auto.
  rewrite Hb; simpl. rewrite Hbs; simpl. eauto.
Qed.

Lemma copy_node_ok f n :
  (forall l p, nedge n l p -> exists q, f p = Some q) -> ok_node n ->
  exists n', copy_node f n = NOk n' /\ ok_node n' /\
    forall l z, nedge n' l z <-> exists y, f y = Some z /\ nedge n l y.
Proof.
  intros Hf Hok. unfold copy_node.
  destruct (nmapM_ok (fun p => n_of_opt (f p)) (fun p q => f p = Some q) (n_eps n)) as (e & He & Fe).
  { intros p Hp. destruct (Hf None p Hp) as [q Hq]. exists q. rewrite Hq. simpl. auto. }
  rewrite He; simpl.
  destruct (nmapM_ok (fun kv => ndo v <- nmapM (fun p => n_of_opt (f p)) (snd kv); NOk (fst kv, to_set v))
             (fun (a b : crange * list nat) => fst b = fst a /\ (forall z, In z (snd b) <-> exists y, f y = Some z /\ In y (snd a))) (n_next n)) as (nx & Hnx & Fnx).
  { intros [r s] Hin. simpl.
    destruct (Hok _ _ Hin) as [Hr Hs].
    destruct (nmapM_ok (fun p => n_of_opt (f p)) (fun p q => f p = Some q) s) as (v & Hv & Fv).
    { intros p Hp. destruct (Hf (Some (fst r)) p) as [q Hq].
      - exists r, s. repeat split; auto. lia.
      - exists q. rewrite Hq. simpl. auto. }
    rewrite Hv; simpl. eexists; split; [reflexivity|]. simpl. split; auto.
    intros z. rewrite In_to_set. split.
    - intros Hz. destruct (Forall2_In_r _ _ _ _ Fv Hz) as (y & ? & ?); eauto.
    - intros (y & Hy & Hin'). destruct (Forall2_In_l _ _ _ _ Fv Hin') as (z' & ? & ?). congruence. }
  rewrite Hnx; simpl. eexists; split; [reflexivity|]. split.
  - intros r s Hin. simpl in Hin. destruct (Forall2_In_r _ _ _ _ Fnx Hin) as ([r' s'] & Hin' & Er & Es).
    simpl in *. subst. destruct (Hok _ _ Hin') as [Hr Hs]. split; auto.
    destruct s' as [|y s']; [congruence|].
    destruct (Hf (Some (fst r')) y) as [q Hq]; [exists r', (y :: s'); repeat split; simpl; auto; lia|].
    intros ->. apply (Es q). exists y; simpl; auto.
  - intros [c|] z; simpl.
    + split.
      * intros (r & s & Hin & Hr & Hz). destruct (Forall2_In_r _ _ _ _ Fnx Hin) as ([r' s'] & Hin' & Er & Es).
        simpl in *; subst. destruct (proj1 (Es z) Hz) as (y & Hy & Hys). exists y. split; auto. exists r', s'; auto.
      * intros (y & Hy & r & s & Hin & Hr & Hys).
        destruct (Forall2_In_l _ _ _ _ Fnx Hin) as ([r' s'] & Hin' & Er & Es). simpl in *; subst.
        exists r, s'. repeat split; try apply Hr; auto. apply Es. eauto.
    + rewrite In_to_set. split.
      * intros Hz. destruct (Forall2_In_r _ _ _ _ Fe Hz) as (y & ? & ?); eauto.
      * intros (y & Hy & Hin'). destruct (Forall2_In_l _ _ _ _ Fe Hin') as (z' & ? & ?). congruence.
Qed.

Definition remap (base : nat) (nodes : list nat) (p : nat) : option nat :=
  option_map (fun i => base + i) (pos_of nodes p).

Lemma pos_of_Some nodes p i : pos_of nodes p = Some i -> nth_error nodes i = Some p.
Proof. apply index_of_Some. apply Nat.eqb_eq. Qed.
Lemma pos_of_nth nodes p i : NoDup nodes -> nth_error nodes i = Some p -> pos_of nodes p = Some i.
Proof. apply index_of_nth. apply Nat.eqb_eq. Qed.
Lemma pos_of_In nodes p : In p nodes -> exists i, pos_of nodes p = Some i.
Proof. apply index_of_In. apply Nat.eqb_eq. Qed.

Lemma copy_graph base lo h n : wfn lo h n -> okh h ->
  exists olds news,
    nmapM (fun p => n_of_opt (nth_error h p)) (nfa_nodes n) = NOk olds /\
    nmapM (copy_node (remap base (nfa_nodes n))) olds = NOk news /\
    length news = length (nfa_nodes n) /\ okh news /\
    forall i x, nth_error (nfa_nodes n) i = Some x ->
      exists n', nth_error news i = Some n' /\
        forall l z, nedge n' l z <-> exists y, remap base (nfa_nodes n) y = Some z /\ hedge h x l y.
Proof.
  intros Hw Hok.
  destruct (nmapM_ok (fun p => n_of_opt (nth_error h p)) (fun p o => nth_error h p = Some o) (nfa_nodes n)) as (olds & Ho & Fo).
  { intros p Hp. apply (wf_range _ _ _ Hw) in Hp. destruct (nth_error h p) eqn:E.
    - simpl; eauto.
    - apply nth_error_None in E. lia. }
  destruct (nmapM_ok (copy_node (remap base (nfa_nodes n)))
     (fun o n' => ok_node n' /\ forall l z, nedge n' l z <-> exists y, remap base (nfa_nodes n) y = Some z /\ nedge o l y) olds) as (news & Hn & Fn).
  { intros o Hin. destruct (Forall2_In_r _ _ _ _ Fo Hin) as (p & Hp & Ep).
    destruct (copy_node_ok (remap base (nfa_nodes n)) o) as (n' & H1 & H2 & H3); eauto.
    - intros l q Hq. assert (In q (nfa_nodes n)) as Hqn.
      { eapply (wf_closed _ _ _ Hw); [exact Hp|]. exists o; eauto. }
      destruct (pos_of_In _ _ Hqn) as [i Hi]. unfold remap. rewrite Hi. simpl; eauto.
    - unfold okh in Hok. rewrite Forall_forall in Hok. apply Hok. eapply nth_error_In; eauto. }
  exists olds, news. repeat split; auto.
  - apply Forall2_len in Fo, Fn. congruence.
  - unfold okh. rewrite Forall_forall. intros n' Hin. destruct (Forall2_In_r _ _ _ _ Fn Hin) as (o & _ & H & _); auto.
  - intros i x Hi. destruct (Forall2_nth _ _ _ _ _ Fo Hi) as (o & Hoi & Ho').
    destruct (Forall2_nth _ _ _ _ _ Fn Hoi) as (n' & Hni & _ & He).
    exists n'. split; auto. intros l z. rewrite He. split.
    + intros (y & Hy & Hedge). exists y. split; auto. exists o; auto.
    + intros (y & Hy & o' & Ho2 & Hedge). exists y. split; auto. congruence.
Qed.

(** Paths in a copied graph living at positions [base ..] of heap [h']. *)
Lemma copy_paths base lo h n h' news : wfn lo h n ->
  (forall i, i < length (nfa_nodes n) -> nth_error h' (base + i) = nth_error news i) ->
  (forall i x, nth_error (nfa_nodes n) i = Some x ->
      exists n', nth_error news i = Some n' /\
        forall l z, nedge n' l z <-> exists y, remap base (nfa_nodes n) y = Some z /\ hedge h x l y) ->
  forall x y x' y' w, In x (nfa_nodes n) -> In y (nfa_nodes n) ->
    remap base (nfa_nodes n) x = Some x' -> remap base (nfa_nodes n) y = Some y' ->
    (path (hedge h') x' w y' <-> path (hedge h) x w y).
Proof.
  intros Hw Hh He x y x' y' w Hx Hy Ex Ey.
  set (f := fun p => match remap base (nfa_nodes n) p with Some q => q | None => 0 end).
  assert (Hf : forall p q, remap base (nfa_nodes n) p = Some q -> q = f p) by (intros p q H; unfold f; rewrite H; auto).
  assert (Hf' : forall p, In p (nfa_nodes n) -> remap base (nfa_nodes n) p = Some (f p)).
  { intros p Hp. unfold f. destruct (pos_of_In _ _ Hp) as [i Hi]. unfold remap. rewrite Hi. reflexivity. }
  assert (Hiso := path_iso (hedge h) (hedge h') (fun p => In p (nfa_nodes n)) f (wf_closed _ _ _ Hw)).
  rewrite (Hf _ _ Ex), (Hf _ _ Ey). rewrite Hiso; auto.
  - split.
    + intros (z & Ez & Hz).
      assert (Hzn : In z (nfa_nodes n)) by (apply (path_closed _ (fun p => In p (nfa_nodes n)) _ _ _ (wf_closed _ _ _ Hw) Hx Hz)).
      assert (z = y); [|subst; auto].
      assert (E1 := Hf' _ Hzn). assert (E2 := Hf' _ Hy). rewrite <- Ez, <- E2 in E1. unfold remap in E1.
      destruct (pos_of_In _ _ Hzn) as [i Hi], (pos_of_In _ _ Hy) as [j Hj]. rewrite Hi, Hj in E1. simpl in E1.
      assert (i = j) as -> by (inversion E1; lia). apply pos_of_Some in Hi, Hj. congruence.
    + eauto.
  - intros p l z Hp. destruct (pos_of_In _ _ Hp) as [i Hi].
    assert (Hfp : f p = base + i) by (unfold f, remap; rewrite Hi; reflexivity).
    apply pos_of_Some in Hi. destruct (He _ _ Hi) as (n' & Hn' & Hed).
    unfold hedge at 1. rewrite Hfp, Hh, Hn' by (eapply nth_error_Some_lt; eauto). split.
    + intros (n0 & E0 & H0). inversion E0; subst. apply Hed in H0 as (q & Hq & Hq'). exists q. split; auto.
    + intros (q & -> & Hq). exists n'. split; auto. apply Hed. exists q. split; auto. apply Hf'.
      eapply (wf_closed _ _ _ Hw); eauto.
Qed.

Lemma remap_In base nodes p : In p nodes -> exists q, remap base nodes p = Some q.
Proof. intros H. destruct (pos_of_In _ _ H) as [i Hi]. unfold remap. rewrite Hi. simpl; eauto. Qed.

Lemma remap_range base nodes p q : remap base nodes p = Some q -> base <= q < base + length nodes.
Proof.
  unfold remap. destruct (pos_of nodes p) as [i|] eqn:E; simpl; [|discriminate].
  intros H; inversion H; subst. apply pos_of_Some, nth_error_Some_lt in E. lia.
Qed.

Lemma clone_ok lo h n : wfn lo h n -> okh h ->
  exists h' c, clone h n = NOk (h', c) /\ ext h h' /\ okh h' /\ wfn (length h) h' c /\
    (forall p, In p (nfa_nodes c) -> length h <= p) /\
    (forall x y w, mat_of h' c x y w <-> mat_of h n x y w).
Proof.
  intros Hw Hok. destruct (copy_graph (length h) _ _ _ Hw Hok) as (olds & news & H1 & H2 & Hlen & Hokn & H3).
  unfold clone. rewrite H1; simpl. fold (remap (length h) (nfa_nodes n)). rewrite H2; simpl.
  destruct (remap_In (length h) _ _ (wf_begin _ _ _ Hw)) as [b Hb].
  destruct (remap_In (length h) _ _ (wf_end _ _ _ Hw)) as [e He].
  unfold remap in Hb, He. rewrite Hb, He; simpl. fold (remap (length h) (nfa_nodes n) (nfa_begin n)) in Hb.
  fold (remap (length h) (nfa_nodes n) (nfa_end n)) in He.
  assert (Hh : forall i, i < length (nfa_nodes n) -> nth_error (h ++ news) (length h + i) = nth_error news i).
  { intros i Hi. rewrite nth_error_app2 by lia. f_equal. lia. }
  do 2 eexists. split; [reflexivity|]. split; [eexists; reflexivity|]. split; [apply Forall_app; split; auto|].
  split; [|split].
  - split; simpl.
    + apply seq_NoDup.
    + intros p Hp. apply in_seq in Hp. rewrite app_length. lia.
    + intros p l q Hp Hq. apply in_seq in Hp. destruct Hq as (m & Hm & Hq).
      replace p with (length h + (p - length h)) in Hm by lia. rewrite Hh in Hm by lia.
      destruct (nth_error (nfa_nodes n) (p - length h)) as [x|] eqn:Ex; [|apply nth_error_None in Ex; lia].
      destruct (H3 _ _ Ex) as (n' & Hn' & Hed). rewrite Hm in Hn'. inversion Hn'; subst.
      apply Hed in Hq as (y & Hy & _). apply remap_range in Hy. apply in_seq. lia.
    + apply remap_range in Hb. apply in_seq. lia.
    + apply remap_range in He. apply in_seq. lia.
  - simpl. intros p Hp. apply in_seq in Hp. lia.
  - intros x y w. unfold mat_of. eapply copy_paths; eauto.
    + eapply wf_pt; eauto.
    + eapply wf_pt; eauto.
    + destruct x; simpl; auto.
    + destruct y; simpl; auto.
Qed.

(** *** The chaining lemma on graphs: an edge from region [P] to region [Q] *)
Section Cat.
  Variables (R : rel) (P Q : nat -> Prop) (u v : nat).
  Hypothesis HQ : closed R Q.
  Hypothesis Hdis : forall x, P x -> Q x -> False.
  Hypothesis Hu : P u.
  Hypothesis Hv : Q v.

  Lemma no_back w : ~ path R v w u.
  Proof. intros H. apply (Hdis u); auto. eapply path_closed; eauto. Qed.

  Lemma cat_once x w y : path (radd R u v) x w y <->
    path R x w y \/ exists w1 w2, w = w1 ++ w2 /\ path R x w1 u /\ path R v w2 y.
  Proof. apply path_radd_once. apply no_back. Qed.

  (** to a point outside [Q] the new edge is useless *)
  Lemma cat_out x w y : ~ Q y -> (path (radd R u v) x w y <-> path R x w y).
  Proof.
    intros Hy. rewrite cat_once. split; [|auto]. intros [H|(w1 & w2 & -> & H1 & H2)]; auto.
    exfalso. apply Hy. eapply path_closed; eauto.
  Qed.
  (** from a point of [Q] as well *)
  Lemma cat_from x w y : Q x -> (path (radd R u v) x w y <-> path R x w y).
  Proof.
    intros Hx. rewrite cat_once. split; [|auto]. intros [H|(w1 & w2 & -> & H1 & H2)]; auto.
    exfalso. apply (Hdis u); auto. eapply path_closed; eauto.
  Qed.
  Lemma closed_Q : closed (radd R u v) Q.
  Proof. intros x l y Hx [H|(-> & -> & ->)]; eauto. Qed.
End Cat.

Lemma hedge_bound h x l y : hedge h x l y -> x < length h.
Proof. intros (n & Hn & _). eapply nth_error_Some_lt; eauto. Qed.

Lemma path_heap_add_eps h u v x w y : u < length h ->
  (path (hedge (add_eps h u v)) x w y <-> path (radd (hedge h) u v) x w y).
Proof. intros Hu. apply path_ext. apply hedge_add_eps. auto. Qed.

(** *** State of the loops that chain copies of [inner] *)
Record chained (sk : bool) (lo : nat) (h : heap) (i : nfa) (M : mat) (b : nat) (nodes : list nat) (e : nat) (X Y : lang) : Prop := {
  ch_ok : okh h;
  ch_inner : wfn lo h i;
  ch_mat : forall x y w, mat_of h i x y w <-> M x y w;
  ch_nodup : NoDup nodes;
  ch_range : forall p, In p nodes -> lo <= p < length h;
  ch_disj : forall p, In p nodes -> In p (nfa_nodes i) -> False;
  ch_closed : closed (hedge h) (fun p => In p nodes \/ In p (nfa_nodes i));
  ch_pc : sk = false -> closed (hedge h) (fun p => In p nodes);
  ch_b : In b nodes;
  ch_e : In e nodes;
  ch_be : forall w, path (hedge h) b w e <-> X w;
  ch_bf : forall w, path (hedge h) b w (nfa_end i) <-> Y w;
  ch_bb : forall w, path (hedge h) b w b <-> M B B w
}.

Lemma nodup_app {A} (l1 l2 : list A) : NoDup l1 -> NoDup l2 -> (forall x, In x l1 -> In x l2 -> False) -> NoDup (l1 ++ l2).
Proof.
  induction l1 as [|a l1 IH]; simpl; intros H1 H2 H; auto.
  inversion H1; subst. constructor.
  - rewrite in_app_iff. intros [?|?]; [auto|eapply H; eauto].
  - apply IH; auto. intros x Hx. apply H. auto.
Qed.

(** [clone] + one linking edge, with or without the skip edge *)
Lemma chained_step (skip sk : bool) lo h i M b nodes e X Y :
  chained sk lo h i M b nodes e X Y ->
  exists h1 c, clone h i = NOk (h1, c) /\
    let h2 := add_eps h1 e (nfa_begin c) in
    let h3 := if skip then add_eps h2 e (nfa_end i) else h2 in
    chained (skip || sk) lo h3 i M b (nodes ++ nfa_nodes c) (nfa_end c) (l_cat X (M B E))
            (if skip then l_or Y (l_cat X (M E E)) else Y) /\ agree lo h h3.
Proof.
  intros [Hok Hin Hm Hnd Hrg Hdj Hcl Hpc Hb He Hbe Hbf Hbb].
  destruct (clone_ok _ _ _ Hin Hok) as (h1 & c & Hc & [t ->] & Hok1 & Hwc & Hcr & Hmc).
  exists (h ++ t), c. split; auto.
  set (h1 := h ++ t) in *.
  assert (Hel : e < length h) by (apply Hrg in He; lia).
  assert (Hl1 : length h <= length h1) by (unfold h1; rewrite app_length; lia).
  assert (Hsame : forall p, p < length h -> nth_error h1 p = nth_error h p) by (intros p Hp; unfold h1; apply nth_error_app1; auto).
  (* regions *)
  set (PF := fun p => In p nodes \/ In p (nfa_nodes i)).
  assert (HPFr : forall p, PF p -> lo <= p < length h).
  { intros p [Hp|Hp]; auto. apply (wf_range _ _ _ Hin) in Hp; auto. }
  assert (HPF1 : closed (hedge h1) PF).
  { eapply closed_agree; [exact Hcl|]. intros x l y Hx. apply hedge_agree, Hsame. apply HPFr; auto. }
  assert (HF1 : closed (hedge h1) (fun p => In p (nfa_nodes i))).
  { eapply closed_agree; [apply (wf_closed _ _ _ Hin)|]. intros x l y Hx. apply hedge_agree, Hsame. apply HPFr; right; auto. }
  assert (HC1 : closed (hedge h1) (fun p => In p (nfa_nodes c))) by apply (wf_closed _ _ _ Hwc).
  assert (HPFC : forall p, PF p -> In p (nfa_nodes c) -> False).
  { intros p Hp Hc'. apply HPFr in Hp. apply Hcr in Hc'. lia. }
  assert (Hpath1 : forall x w y, PF x -> (path (hedge h) x w y <-> path (hedge h1) x w y)).
  { apply path_frame; [exact Hcl|]. intros x l y Hx. apply hedge_agree, Hsame. apply HPFr; auto. }
  assert (Hu : PF e) by (left; auto).
  assert (Hv : In (nfa_begin c) (nfa_nodes c)) by apply (wf_begin _ _ _ Hwc).
  set (h2 := add_eps h1 e (nfa_begin c)).
  assert (Hl2 : length h2 = length h1) by apply add_eps_length.
  assert (Hp2 : forall x w y, path (hedge h2) x w y <-> path (radd (hedge h1) e (nfa_begin c)) x w y).
  { intros. apply path_heap_add_eps. lia. }
  assert (Hed2 := hedge_add_eps h1 e (nfa_begin c) ltac:(lia)). fold h2 in Hed2.
  pose proof (fun x w y => cat_once (hedge h1) PF (fun p => In p (nfa_nodes c)) e (nfa_begin c) HC1 HPFC Hu Hv x w y) as Conce.
  pose proof (fun x w y => cat_out (hedge h1) PF (fun p => In p (nfa_nodes c)) e (nfa_begin c) HC1 HPFC Hu Hv x w y) as Cout.
  pose proof (fun x w y => cat_from (hedge h1) PF (fun p => In p (nfa_nodes c)) e (nfa_begin c) HC1 HPFC Hu Hv x w y) as Cfrom.
  assert (Hnb : PF b) by (left; auto).
  assert (HbC : ~ In b (nfa_nodes c)) by (intros H; eapply HPFC; eauto).
  assert (HfF : In (nfa_end i) (nfa_nodes i)) by apply (wf_end _ _ _ Hin).
  assert (HfC : ~ In (nfa_end i) (nfa_nodes c)) by (intros H; eapply HPFC; [right|]; eauto).
  assert (HFe : ~ In e (nfa_nodes i)) by (intros H; eauto).
  (* closedness after the first edge *)
  assert (HF2 : closed (hedge h2) (fun p => In p (nfa_nodes i))).
  { intros x l y Hx Hr. apply Hed2 in Hr as [Hr|(-> & _)]; [eauto|tauto]. }
  assert (HC2 : closed (hedge h2) (fun p => In p (nfa_nodes c))).
  { intros x l y Hx Hr. apply Hed2 in Hr as [Hr|(-> & -> & ->)]; eauto. }
  assert (HA2 : closed (hedge h2) (fun p => In p (nodes ++ nfa_nodes c) \/ In p (nfa_nodes i))).
  { intros x l y Hx Hr. rewrite in_app_iff in *. apply Hed2 in Hr as [Hr|(-> & -> & ->)]; [|auto].
    destruct Hx as [[Hx|Hx]|Hx].
    - destruct (HPF1 x l y (or_introl Hx) Hr); auto.
    - left; right; eapply HC1; eauto.
    - right; eapply HF1; eauto. }
  (* path facts after first edge *)
  assert (B2e : forall w, path (hedge h2) b w (nfa_end c) <-> l_cat X (M B E) w).
  { intros w. rewrite Hp2, Conce. split.
    - intros [H|(w1 & w2 & -> & H1 & H2)].
      + exfalso. apply (HPFC (nfa_end c)); [|apply (wf_end _ _ _ Hwc)]. eapply path_closed; [exact HPF1| |exact H]; auto.
      + exists w1, w2. split; auto. split; [apply Hbe, Hpath1; auto|]. apply Hm, Hmc. exact H2.
    - intros (w1 & w2 & -> & H1 & H2). right. exists w1, w2. split; auto. split.
      + apply Hpath1; auto. apply Hbe; auto.
      + apply Hm, Hmc in H2. exact H2. }
  assert (B2f : forall w, path (hedge h2) b w (nfa_end i) <-> Y w).
  { intros w. rewrite Hp2, Cout, <- Hpath1; auto. }
  assert (B2b : forall w, path (hedge h2) b w b <-> M B B w).
  { intros w. rewrite Hp2, Cout, <- Hpath1; auto. }
  assert (B2u : forall w, path (hedge h2) b w e <-> X w).
  { assert (HeC : ~ In e (nfa_nodes c)) by (intros H; apply (HPFC e); auto).
    intros w. rewrite Hp2, Cout, <- Hpath1; auto. }
  assert (Hi2 : forall p, In p (nfa_nodes i) -> nth_error h2 p = nth_error h p).
  { intros p Hp. unfold h2, add_eps. rewrite nth_error_upd_nth.
    destruct (Nat.eqb_spec e p) as [->|_]; [tauto|]. apply Hsame. apply HPFr; right; auto. }
  assert (Ff : forall w, path (hedge h2) (nfa_end i) w (nfa_end i) <-> M E E w).
  { intros w. rewrite <- Hm. unfold mat_of; simpl. symmetry.
    apply (path_frame (hedge h) (hedge h2) (fun p => In p (nfa_nodes i))); auto.
    - apply (wf_closed _ _ _ Hin).
    - intros x l y Hx. apply hedge_agree; auto. }
  cbv zeta. fold h2. destruct skip; cbv iota.
  - (* second edge e -> end of inner *)
    set (h3 := add_eps h2 e (nfa_end i)) in *.
    assert (Hp3 : forall x w y, path (hedge h3) x w y <-> path (radd (hedge h2) e (nfa_end i)) x w y).
    { intros. apply path_heap_add_eps. lia. }
    assert (Hed3 := hedge_add_eps h2 e (nfa_end i) ltac:(lia)). fold h3 in Hed3.
    set (PC := fun p => ~ In p (nfa_nodes i)).
    assert (HPCF : forall p, PC p -> In p (nfa_nodes i) -> False) by (unfold PC; auto).
    pose proof (fun x w y => cat_once (hedge h2) PC (fun p => In p (nfa_nodes i)) e (nfa_end i) HF2 HPCF HFe HfF x w y) as Donce.
    pose proof (fun x w y => cat_out (hedge h2) PC (fun p => In p (nfa_nodes i)) e (nfa_end i) HF2 HPCF HFe HfF x w y) as Dout.
    assert (Hcne : ~ In (nfa_end c) (nfa_nodes i)).
    { intros H. apply (HPFC (nfa_end c)); [right; auto|apply (wf_end _ _ _ Hwc)]. }
    assert (Hbi : ~ In b (nfa_nodes i)) by eauto.
    assert (Hi3 : forall p, In p (nfa_nodes i) -> nth_error h3 p = nth_error h p).
    { intros p Hp. unfold h3, add_eps at 1. rewrite nth_error_upd_nth.
      destruct (Nat.eqb_spec e p) as [->|_]; [tauto|]. auto. }
    split.
    + split.
      * unfold h3, h2. do 2 apply okh_add_eps. auto.
      * eapply wfn_agree; [exact Hin| |exact Hi3]. unfold h3. rewrite add_eps_length. lia.
      * intros x y w. rewrite <- Hm. symmetry. eapply mat_agree; eauto.
      * apply nodup_app; auto; [apply (wf_nodup _ _ _ Hwc)|]. intros x H1 H2. apply (HPFC x); auto. left; auto.
      * intros p Hp. unfold h3. rewrite add_eps_length, Hl2. apply in_app_iff in Hp as [Hp|Hp].
        -- apply Hrg in Hp; lia.
        -- apply (wf_range _ _ _ Hwc) in Hp. specialize (HPFr _ Hu). lia.
      * intros p Hp Hp'. apply in_app_iff in Hp as [Hp|Hp]; eauto. apply (HPFC p); auto. right; auto.
      * intros x l y Hx Hr. apply Hed3 in Hr as [Hr|(-> & -> & ->)]; [eapply HA2; eauto|auto].
      * discriminate.
      * apply in_app_iff; auto.
      * apply in_app_iff; right. apply (wf_end _ _ _ Hwc).
      * intros w. rewrite Hp3, Dout; auto.
      * intros w. rewrite Hp3, Donce. unfold l_or. rewrite B2f.
        apply or_iff_compat_l. split.
        -- intros (w1 & w2 & -> & H1 & H2). exists w1, w2. split; auto. split; [apply B2u; auto|apply Ff; auto].
        -- intros (w1 & w2 & -> & H1 & H2). exists w1, w2. split; auto. split; [apply B2u; auto|apply Ff; auto].
      * intros w. rewrite Hp3, Dout; auto.
    + apply agree_trans with (k' := lo) (h2 := h1); [apply agree_app; specialize (HPFr _ Hu); lia| |lia].
      apply agree_trans with (k' := lo) (h2 := h2); [apply agree_add_eps; specialize (HPFr _ Hu); lia| |lia].
      apply agree_add_eps. specialize (HPFr _ Hu); lia.
  - split.
    + split; auto.
      * unfold h2. apply okh_add_eps. auto.
      * eapply wfn_agree; [exact Hin| |exact Hi2]. lia.
      * intros x y w. rewrite <- Hm. symmetry. eapply mat_agree; eauto.
      * apply nodup_app; auto; [apply (wf_nodup _ _ _ Hwc)|]. intros x H1 H2. apply (HPFC x); auto. left; auto.
      * intros p Hp. rewrite Hl2. apply in_app_iff in Hp as [Hp|Hp].
        -- apply Hrg in Hp; lia.
        -- apply (wf_range _ _ _ Hwc) in Hp. specialize (HPFr _ Hu). lia.
      * intros p Hp Hp'. apply in_app_iff in Hp as [Hp|Hp]; eauto. apply (HPFC p); auto. right; auto.
      * simpl. intros Hsk x l y Hx Hr. rewrite in_app_iff in *. apply Hed2 in Hr as [Hr|(-> & -> & ->)]; [|auto].
        destruct Hx as [Hx|Hx]; [left|right; eapply HC1; eauto].
        eapply (Hpc Hsk); [exact Hx|]. apply (proj2 (hedge_agree h h1 x ltac:(apply Hsame, HPFr; left; auto) _ _)). exact Hr.
      * apply in_app_iff; auto.
      * apply in_app_iff; right. apply (wf_end _ _ _ Hwc).
    + apply agree_trans with (k' := lo) (h2 := h1); [apply agree_app; specialize (HPFr _ Hu); lia| |lia].
      apply agree_add_eps. specialize (HPFr _ Hu); lia.
Qed.

Lemma clone_start lo h i M : wfn lo h i -> okh h -> (forall x y w, mat_of h i x y w <-> M x y w) ->
  exists h1 c, clone h i = NOk (h1, c) /\ agree lo h h1 /\
    chained false lo h1 i M (nfa_begin c) (nfa_nodes c) (nfa_end c) (M B E) l_none.
Proof.
  intros Hw Hok Hm.
  destruct (clone_ok _ _ _ Hw Hok) as (h1 & c & Hc & [t ->] & Hok1 & Hwc & Hcr & Hmc).
  exists (h ++ t), c. split; auto.
  assert (Hlo : lo <= length h) by (destruct (wf_range _ _ _ Hw _ (wf_begin _ _ _ Hw)); lia).
  split; [apply agree_app; auto|].
  assert (Hsame : forall p, In p (nfa_nodes i) -> nth_error (h ++ t) p = nth_error h p).
  { intros p Hp. apply (wf_range _ _ _ Hw) in Hp. apply nth_error_app1; lia. }
  assert (Hw1 : wfn lo (h ++ t) i) by (eapply wfn_agree; eauto; rewrite app_length; lia).
  assert (Hd : forall p, In p (nfa_nodes c) -> In p (nfa_nodes i) -> False).
  { intros p Hp Hp'. apply Hcr in Hp. apply (wf_range _ _ _ Hw) in Hp'. lia. }
  split; auto.
  - intros x y w. rewrite <- Hm. symmetry. eapply mat_agree; eauto.
  - apply (wf_nodup _ _ _ Hwc).
  - intros p Hp. apply (wf_range _ _ _ Hwc) in Hp. lia.
  - intros x l y [Hx|Hx] Hr; [left; eapply (wf_closed _ _ _ Hwc); eauto|right; eapply (wf_closed _ _ _ Hw1); eauto].
  - intros _. apply (wf_closed _ _ _ Hwc).
  - apply (wf_begin _ _ _ Hwc).
  - apply (wf_end _ _ _ Hwc).
  - intros w. rewrite <- Hm, <- Hmc. reflexivity.
  - intros w. unfold l_none. split; [|tauto]. intros H. apply (Hd (nfa_end i)); [|apply (wf_end _ _ _ Hw)].
    eapply (path_closed _ _ _ _ _ (wf_closed _ _ _ Hwc)); [|exact H]. apply (wf_begin _ _ _ Hwc).
  - intros w. rewrite <- Hm, <- Hmc. reflexivity.
Qed.

Lemma chained_ext sk lo h i M b nodes e X Y X' Y' :
  (forall w, X w <-> X' w) -> (forall w, Y w <-> Y' w) ->
  chained sk lo h i M b nodes e X Y -> chained sk lo h i M b nodes e X' Y'.
Proof. intros HX HY [? ? ? ? ? ? ? ? ? ? Hbe Hbf ?]. split; auto; intros w; [rewrite Hbe|rewrite Hbf]; auto. Qed.

Lemma chain_ok k : forall sk lo h i M b nodes e X Y,
  chained sk lo h i M b nodes e X Y ->
  exists h' nodes' e', chain k i h nodes e = NOk (h', nodes', e') /\ agree lo h h' /\ chained sk lo h' i M b nodes' e' (l_cat X (l_pow (M B E) k)) Y.
Proof.
  induction k as [|k IH]; intros sk lo h i M b nodes e X Y Hch; simpl.
  - exists h, nodes, e. split; auto. split; [apply agree_refl|].
    eapply chained_ext; [| |exact Hch]; [|tauto]. intros w. symmetry. apply l_cat_eps_r.
  - destruct (chained_step false _ _ _ _ _ _ _ _ _ _ Hch) as (h1 & c & Hc & Hch' & Hag). cbv zeta iota in *.
    rewrite Hc; simpl. destruct (IH _ _ _ _ _ _ _ _ _ _ Hch') as (h' & nodes' & e' & Hk & Hag' & Hch'').
    exists h', nodes', e'. split; auto. split; [eapply agree_trans; eauto|].
    eapply chained_ext; [| |exact Hch'']; [|tauto]. intros w. apply l_cat_assoc.
Qed.

Definition skips (X Mbe Mee : lang) (k : nat) : lang :=
  fun w => exists j, j < k /\ l_cat (l_cat X (l_pow Mbe j)) Mee w.

Lemma chain_skip_ok k : forall sk lo h i M b nodes e X Y,
  chained sk lo h i M b nodes e X Y ->
  exists sk' h' nodes' e', chain_skip k i h nodes e = NOk (h', nodes', e') /\ agree lo h h' /\ chained sk' lo h' i M b nodes' e' (l_cat X (l_pow (M B E) k)) (l_or Y (skips X (M B E) (M E E) k)).
Proof.
  induction k as [|k IH]; intros sk lo h i M b nodes e X Y Hch; simpl.
  - exists sk, h, nodes, e. split; auto. split; [apply agree_refl|].
    eapply chained_ext; [| |exact Hch]; intros w.
    + symmetry. apply l_cat_eps_r.
    + unfold l_or, skips. split; [auto|]. intros [H|(j & Hj & _)]; [auto|lia].
  - destruct (chained_step true _ _ _ _ _ _ _ _ _ _ Hch) as (h1 & c & Hc & Hch' & Hag). cbv zeta iota in *.
    rewrite Hc; simpl. destruct (IH _ _ _ _ _ _ _ _ _ _ Hch') as (sk' & h' & nodes' & e' & Hk & Hag' & Hch'').
    exists sk', h', nodes', e'. split; auto. split; [eapply agree_trans; eauto|].
    eapply chained_ext; [| |exact Hch'']; intros w.
    + apply l_cat_assoc.
    + unfold l_or, skips. split.
      * intros [[H|H]|(j & Hj & H)]; [auto| |].
        -- right. exists 0. split; [lia|]. simpl. eapply l_cat_ext; [intros; apply l_cat_eps_r| |exact H]. tauto.
        -- right. exists (S j). split; [lia|]. simpl. eapply l_cat_ext; [| |exact H]; [|tauto]. intros; symmetry; apply l_cat_assoc.
      * intros [H|(j & Hj & H)]; [auto|]. destruct j as [|j].
        -- left; right. simpl in H. eapply l_cat_ext; [intros; symmetry; apply l_cat_eps_r| |exact H]. tauto.
        -- right. exists j. split; [lia|]. eapply l_cat_ext; [| |exact H]; [|tauto]. intros; apply l_cat_assoc.
Qed.
