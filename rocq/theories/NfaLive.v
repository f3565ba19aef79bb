(** When every node of the automaton of an expression leads to its end node. *)
From Verif Require Import Lib Hir NfaPath NfaSem NfaModel NfaProofs NfaCorrect NfaTop.

(** no part of the expression is an empty class or an empty alternation *)
Fixpoint lively (h : hir) : bool :=
  match h with
  | HClassU rs => match rs with [] => false | _ => true end
  | HRep _ _ h => lively h
  | HGroup h => lively h
  | HConcat hs => (fix go l := match l with [] => true | x :: l' => lively x && go l' end) hs
  | HAlt hs => match hs with [] => false | _ => true end && (fix go l := match l with [] => true | x :: l' => lively x && go l' end) hs
  | _ => true
  end.
Definition all_lively (l : list hir) : bool := (fix go l := match l with [] => true | x :: l' => lively x && go l' end) l.

Definition reach (h : heap) (p e : nat) : Prop := exists w, path (hedge h) p w e.
Definition toE (h : heap) (S : list nat) (e : nat) : Prop := forall p, In p S -> reach h p e.
Definition co (h : heap) (n : nfa) : Prop := toE h (nfa_nodes n) (nfa_end n).
Definition sub (h h' : heap) : Prop := forall x l y, hedge h x l y -> hedge h' x l y.

Lemma reach_refl h p : reach h p p. Proof. exists []. constructor. Qed.
Lemma reach_trans h p q r : reach h p q -> reach h q r -> reach h p r.
Proof. intros [u Hu] [v Hv]. exists (u ++ v). eapply path_app; eauto. Qed.
Lemma reach_sub h h' p q : sub h h' -> reach h p q -> reach h' p q.
Proof. intros Hs [u Hu]. exists u. eapply path_mono; eauto. Qed.
Lemma toE_sub h h' S e : sub h h' -> toE h S e -> toE h' S e.
Proof. intros Hs H p Hp. eapply reach_sub; eauto. Qed.
Lemma sub_refl h : sub h h. Proof. intros x l y; auto. Qed.
Lemma sub_trans h1 h2 h3 : sub h1 h2 -> sub h2 h3 -> sub h1 h3.
Proof. intros A C x l y H. auto. Qed.
Lemma sub_add h u v : u < length h -> sub h (add_eps h u v).
Proof. intros Hu x l y H. apply hedge_add_eps; auto. left. auto. Qed.
Lemma reach_add h u v : u < length h -> reach (add_eps h u v) u v.
Proof. intros Hu. exists []. eapply p_eps; [|constructor]. apply hedge_add_eps; auto. right. auto. Qed.
Lemma sub_agree h h' : agree (length h) h h' -> sub h h'.
Proof. intros [_ H] x l y Hr. apply (hedge_agree h h' x); auto. apply H. eapply hedge_bound; eauto. Qed.
Lemma sub_ext h t : sub h (h ++ t).
Proof. apply sub_agree, agree_app. auto. Qed.

Lemma clone_co lo h n h' c : wfn lo h n -> okh h -> clone h n = NOk (h', c) -> co h n -> co h' c /\ sub h h'.
Proof.
  intros Hw Hok Hc Hco. destruct (copy_graph (length h) _ _ _ Hw Hok) as (olds & news & H1 & H2 & Hlen & Hokn & H3).
  unfold clone in Hc. rewrite H1 in Hc. simpl in Hc. fold (remap (length h) (nfa_nodes n)) in Hc. rewrite H2 in Hc. simpl in Hc.
  destruct (remap_In (length h) _ _ (wf_begin _ _ _ Hw)) as [b Hb].
  destruct (remap_In (length h) _ _ (wf_end _ _ _ Hw)) as [e He].
  assert (Hb' := Hb). assert (He' := He). unfold remap in Hb', He'. rewrite Hb', He' in Hc. simpl in Hc. inversion Hc; subst h' c. clear Hc.
  split; [|apply sub_ext].
  assert (Hh : forall i, i < length (nfa_nodes n) -> nth_error (h ++ news) (length h + i) = nth_error news i).
  { intros i Hi. rewrite nth_error_app2 by lia. f_equal. lia. }
  intros p Hp. simpl in Hp. apply in_seq in Hp. cbn [nfa_end].
  destruct (nth_error (nfa_nodes n) (p - length h)) as [y|] eqn:Ey; [|apply nth_error_None in Ey; lia].
  assert (Hy : remap (length h) (nfa_nodes n) y = Some p).
  { unfold remap. rewrite (pos_of_nth _ _ _ (wf_nodup _ _ _ Hw) Ey). simpl. f_equal. lia. }
  destruct (Hco y (nth_error_In _ _ Ey)) as [w Hp']. exists w.
  eapply (copy_paths _ _ _ _ _ _ Hw Hh H3); [eapply nth_error_In; eauto|apply (wf_end _ _ _ Hw)|exact Hy|exact He|exact Hp'].
Qed.

Lemma toE_app h S1 S2 e : toE h S1 e -> toE h S2 e -> toE h (S1 ++ S2) e.
Proof. intros A C p Hp. apply in_app_iff in Hp as [Hp|Hp]; auto. Qed.
Lemma toE_trans h S e e' : toE h S e -> reach h e e' -> toE h S e'.
Proof. intros A C p Hp. eapply reach_trans; eauto. Qed.

(** one round of the loops *)
Lemma step_co lo h i h1 c nodes e : wfn lo h i -> okh h -> clone h i = NOk (h1, c) -> co h i -> toE h nodes e -> e < length h ->
  let h2 := add_eps h1 e (nfa_begin c) in toE h2 (nodes ++ nfa_nodes c) (nfa_end c) /\ sub h h2.
Proof.
  intros Hw Hok Hc Hi Hn He h2. destruct (clone_co _ _ _ _ _ Hw Hok Hc Hi) as [C1 S1].
  destruct (clone_ok _ _ _ Hw Hok) as (h1' & c' & Hc' & Hext & _ & Hwc & _).
  assert (h1' = h1) as -> by congruence. assert (c' = c) as -> by congruence.
  assert (He1 : e < length h1) by (destruct Hext as [t Ht]; rewrite Ht, app_length; lia).
  assert (S2 : sub h1 h2) by exact (sub_add h1 e (nfa_begin c) He1). assert (S3 : sub h h2) by (eapply sub_trans; eauto).
  assert (C2 : toE h2 (nfa_nodes c) (nfa_end c)) by exact (toE_sub _ _ _ _ S2 C1).
  split; auto. apply toE_app; auto. eapply toE_trans; [eapply toE_sub; eauto|].
  eapply reach_trans; [apply reach_add; auto|]. apply C2. apply (wf_begin _ _ _ Hwc).
Qed.

Lemma chain_co k : forall sk lo h i M b nodes e X Y h' nodes' e', chained sk lo h i M b nodes e X Y -> co h i -> toE h nodes e ->
  chain k i h nodes e = NOk (h', nodes', e') -> toE h' nodes' e' /\ sub h h'.
Proof.
  induction k as [|k IH]; intros sk lo h i M b nodes e X Y h' nodes' e' Hch Hi Hn Hk; simpl in Hk.
  - inversion Hk; subst. split; auto. apply sub_refl.
  - destruct (chained_step false _ _ _ _ _ _ _ _ _ _ Hch) as (h1 & c & Hc & Hch' & _). cbv zeta iota in *. rewrite Hc in Hk. simpl in Hk.
    assert (He : e < length h) by (apply (ch_range _ _ _ _ _ _ _ _ _ _ Hch), (ch_e _ _ _ _ _ _ _ _ _ _ Hch)).
    destruct (step_co _ _ _ _ _ _ _ (ch_inner _ _ _ _ _ _ _ _ _ _ Hch) (ch_ok _ _ _ _ _ _ _ _ _ _ Hch) Hc Hi Hn He) as [A1 A2].
    destruct (IH _ _ _ _ _ _ _ _ _ _ _ _ _ Hch' (toE_sub _ _ _ _ A2 Hi) A1 Hk) as [B1 B2]. split; auto. eapply sub_trans; eauto.
Qed.
Lemma chain_skip_co k : forall sk lo h i M b nodes e X Y h' nodes' e', chained sk lo h i M b nodes e X Y -> co h i -> toE h nodes e ->
  chain_skip k i h nodes e = NOk (h', nodes', e') -> toE h' nodes' e' /\ sub h h'.
Proof.
  induction k as [|k IH]; intros sk lo h i M b nodes e X Y h' nodes' e' Hch Hi Hn Hk; simpl in Hk.
  - inversion Hk; subst. split; auto. apply sub_refl.
  - destruct (chained_step true _ _ _ _ _ _ _ _ _ _ Hch) as (h1 & c & Hc & Hch' & _). cbv zeta iota in *. rewrite Hc in Hk. simpl in Hk.
    assert (He : e < length h) by (apply (ch_range _ _ _ _ _ _ _ _ _ _ Hch), (ch_e _ _ _ _ _ _ _ _ _ _ Hch)).
    destruct (step_co _ _ _ _ _ _ _ (ch_inner _ _ _ _ _ _ _ _ _ _ Hch) (ch_ok _ _ _ _ _ _ _ _ _ _ Hch) Hc Hi Hn He) as [A1 A2].
    assert (He2 : e < length (add_eps h1 e (nfa_begin c))).
    { assert (H := ch_range _ _ _ _ _ _ _ _ _ _ Hch' e). rewrite !add_eps_length in H. rewrite add_eps_length. apply H.
      apply in_app_iff. left. apply (ch_e _ _ _ _ _ _ _ _ _ _ Hch). }
    assert (S2 : sub (add_eps h1 e (nfa_begin c)) (add_eps (add_eps h1 e (nfa_begin c)) e (nfa_end i))) by (apply sub_add; auto).
    assert (A3 := sub_trans _ _ _ A2 S2).
    destruct (IH _ _ _ _ _ _ _ _ _ _ _ _ _ Hch' (toE_sub _ _ _ _ A3 Hi) (toE_sub _ _ _ _ S2 A1) Hk) as [B1 B2]. split; auto. eapply sub_trans; eauto.
Qed.

(** joining the chain to [inner] *)
Lemma link_co sk lo h i M b nodes e X Y : chained sk lo h i M b nodes e X Y -> co h i -> toE h nodes e ->
  let h1 := add_eps h e (nfa_begin i) in toE h1 (nodes ++ nfa_nodes i) (nfa_end i) /\ sub h h1 /\ e < length h1.
Proof.
  intros Hch Hi Hn h1.
  assert (He : e < length h) by (apply (ch_range _ _ _ _ _ _ _ _ _ _ Hch), (ch_e _ _ _ _ _ _ _ _ _ _ Hch)).
  assert (S1 : sub h h1) by (apply sub_add; auto). assert (C1 : toE h1 (nfa_nodes i) (nfa_end i)) by exact (toE_sub _ _ _ _ S1 Hi).
  split; [|split; auto; unfold h1; rewrite add_eps_length; auto]. apply toE_app; auto. eapply toE_trans; [eapply toE_sub; eauto|].
  eapply reach_trans; [apply reach_add; auto|]. apply C1. apply (wf_begin _ _ _ (ch_inner _ _ _ _ _ _ _ _ _ _ Hch)).
Qed.

Lemma exactly_co n lo h i M h' n' : wfn lo h i -> okh h -> mat_eq (mat_of h i) M -> co h i -> mk_exactly n h i = NOk (h', n') -> co h' n'.
Proof.
  intros Hw Hok Hm Hi Hk. unfold mk_exactly in Hk. destruct (clone_start _ _ _ _ Hw Hok Hm) as (h1 & c & Hc & _ & Hch). rewrite Hc in Hk. simpl in Hk.
  destruct (clone_co _ _ _ _ _ Hw Hok Hc Hi) as [C1 S1].
  destruct (chain_ok (n - 2) _ _ _ _ _ _ _ _ _ _ Hch) as (h2 & nodes & e & Hk2 & _ & Hch2). rewrite Hk2 in Hk. simpl in Hk. inversion Hk; subst.
  destruct (chain_co _ _ _ _ _ _ _ _ _ _ _ _ _ _ Hch (toE_sub _ _ _ _ S1 Hi) C1 Hk2) as [C2 S2].
  exact (proj1 (link_co _ _ _ _ _ _ _ _ _ _ Hch2 (toE_sub _ _ _ _ S2 (toE_sub _ _ _ _ S1 Hi)) C2)).
Qed.
Lemma at_least_co n lo h i M h' n' : wfn lo h i -> okh h -> mat_eq (mat_of h i) M -> co h i -> mk_at_least n h i = NOk (h', n') -> co h' n'.
Proof.
  intros Hw Hok Hm Hi Hk. unfold mk_at_least in Hk. destruct (clone_start _ _ _ _ Hw Hok Hm) as (h1 & c & Hc & _ & Hch). rewrite Hc in Hk. simpl in Hk.
  destruct (clone_co _ _ _ _ _ Hw Hok Hc Hi) as [C1 S1].
  destruct (chain_ok (n - 1) _ _ _ _ _ _ _ _ _ _ Hch) as (h2 & nodes & e & Hk2 & _ & Hch2). rewrite Hk2 in Hk. simpl in Hk. inversion Hk; subst.
  destruct (chain_co _ _ _ _ _ _ _ _ _ _ _ _ _ _ Hch (toE_sub _ _ _ _ S1 Hi) C1 Hk2) as [C2 S2].
  destruct (link_co _ _ _ _ _ _ _ _ _ _ Hch2 (toE_sub _ _ _ _ S2 (toE_sub _ _ _ _ S1 Hi)) C2) as (C3 & S3 & _).
  destruct (wfn_lo _ _ _ (ch_inner _ _ _ _ _ _ _ _ _ _ Hch2)) as [_ Hl].
  assert (He : nfa_end i < length (add_eps h2 e (nfa_begin i))) by (rewrite add_eps_length; lia).
  unfold co. cbn [nfa_nodes nfa_end]. eapply toE_trans; [eapply toE_sub; [apply sub_add; auto|exact C3]|]. apply reach_add; auto.
Qed.
Lemma bounded_co n m lo h i M h' n' : wfn lo h i -> okh h -> mat_eq (mat_of h i) M -> co h i -> mk_bounded n m h i = NOk (h', n') -> co h' n'.
Proof.
  intros Hw Hok Hm Hi Hk. unfold mk_bounded in Hk. destruct (clone_start _ _ _ _ Hw Hok Hm) as (h1 & c & Hc & _ & Hch). rewrite Hc in Hk. simpl in Hk.
  destruct (clone_co _ _ _ _ _ Hw Hok Hc Hi) as [C1 S1].
  destruct (chain_ok (n - 1) _ _ _ _ _ _ _ _ _ _ Hch) as (h2 & nodes & e & Hk2 & _ & Hch2). rewrite Hk2 in Hk. simpl in Hk.
  destruct (chain_co _ _ _ _ _ _ _ _ _ _ _ _ _ _ Hch (toE_sub _ _ _ _ S1 Hi) C1 Hk2) as [C2 S2].
  assert (I2 : co h2 i) by (eapply toE_sub; [exact S2|]; eapply toE_sub; [exact S1|exact Hi]).
  destruct (chain_skip_ok (m - n - 1) _ _ _ _ _ _ _ _ _ _ Hch2) as (sk & h3 & nodes' & e' & Hk3 & _ & Hch3). rewrite Hk3 in Hk. simpl in Hk. inversion Hk; subst.
  destruct (chain_skip_co _ _ _ _ _ _ _ _ _ _ _ _ _ _ Hch2 I2 C2 Hk3) as [C3 S3].
  destruct (link_co _ _ _ _ _ _ _ _ _ _ Hch3 (toE_sub _ _ _ _ S3 I2) C3) as (C4 & S4 & L4).
  unfold co. cbn [nfa_nodes nfa_end]. eapply toE_sub; [apply sub_add; exact L4|exact C4].
Qed.
Lemma bounded0_co m lo h i M h' n' : wfn lo h i -> okh h -> mat_eq (mat_of h i) M -> co h i -> mk_bounded0 m h i = NOk (h', n') -> co h' n'.
Proof.
  intros Hw Hok Hm Hi Hk. unfold mk_bounded0 in Hk. destruct (clone_start _ _ _ _ Hw Hok Hm) as (h1 & c & Hc & _ & Hch). rewrite Hc in Hk. simpl in Hk.
  destruct (clone_co _ _ _ _ _ Hw Hok Hc Hi) as [C1 S1].
  assert (I2 : co h1 i) by (eapply toE_sub; [exact S1|exact Hi]).
  destruct (chain_skip_ok (m - 2) _ _ _ _ _ _ _ _ _ _ Hch) as (sk & h3 & nodes' & e' & Hk3 & _ & Hch3). rewrite Hk3 in Hk. simpl in Hk. inversion Hk; subst.
  destruct (chain_skip_co _ _ _ _ _ _ _ _ _ _ _ _ _ _ Hch I2 C1 Hk3) as [C3 S3].
  destruct (link_co _ _ _ _ _ _ _ _ _ _ Hch3 (toE_sub _ _ _ _ S3 I2) C3) as (C4 & S4 & L4).
  assert (Lb : nfa_begin c < length h3) by (apply (ch_range _ _ _ _ _ _ _ _ _ _ Hch3), (ch_b _ _ _ _ _ _ _ _ _ _ Hch3)).
  unfold co. cbn [nfa_nodes nfa_end]. eapply toE_sub; [apply sub_add; rewrite !add_eps_length; exact Lb|]. eapply toE_sub; [apply sub_add; exact L4|exact C4].
Qed.

Lemma mk_rep_co k lo h i M h' n' : wfn lo h i -> okh h -> mat_eq (mat_of h i) M -> co h i -> mk_rep k h i = NOk (h', n') -> co h' n'.
Proof.
  intros Hw Hok Hm Hi Hk. destruct (wfn_lo _ _ _ Hw) as [L1 L2].
  assert (Hz : forall r, NOk (mk_zero h) = NOk r -> co (fst r) (snd r)).
  { intros r Hr. unfold mk_zero, alloc in Hr. inversion Hr; subst. intros p [<-|[]]. apply reach_refl. }
  assert (Ho : forall r, NOk (mk_opt h i) = NOk r -> co (fst r) (snd r)).
  { intros r Hr. inversion Hr; subst. unfold co. simpl. eapply toE_sub; [apply sub_add; lia|exact Hi]. }
  assert (Hs : forall r, NOk (mk_star h i) = NOk r -> co (fst r) (snd r)).
  { intros r Hr. inversion Hr; subst. unfold co. simpl. eapply toE_trans; [eapply toE_sub; [apply sub_add; lia|exact Hi]|]. apply reach_add. lia. }
  assert (Hp : forall r, NOk (mk_plus h i) = NOk r -> co (fst r) (snd r)).
  { intros r Hr. inversion Hr; subst. unfold co. simpl. eapply toE_sub; [apply sub_add; lia|exact Hi]. }
  assert (Hg : forall n m, (if Nat.eqb n m then mk_exactly n h i else if Nat.ltb n m then mk_bounded n m h i else NPanic) = NOk (h', n') -> co h' n').
  { intros n m H. destruct (Nat.eqb n m); [eapply exactly_co; eauto|]. destruct (Nat.ltb n m); [eapply bounded_co; eauto|discriminate]. }
  destruct k as [| | |n|n|n m]; cbn [mk_rep] in Hk.
  - exact (Ho _ Hk).
  - exact (Hs _ Hk).
  - exact (Hp _ Hk).
  - destruct n as [|[|n]]; [exact (Hz _ Hk)|inversion Hk; subst; auto|eapply exactly_co; eauto].
  - destruct n as [|n]; [exact (Hs _ Hk)|eapply at_least_co; eauto].
  - destruct n as [|[|n]], m as [|[|m]].
    + exact (Hz _ Hk).
    + exact (Ho _ Hk).
    + eapply bounded0_co; eauto.
    + exact (Hg 1 0 Hk).
    + inversion Hk; subst; auto.
    + exact (Hg 1 (S (S m)) Hk).
    + exact (Hg (S (S n)) 0 Hk).
    + exact (Hg (S (S n)) 1 Hk).
    + exact (Hg (S (S n)) (S (S m)) Hk).
Qed.

Lemma atom_co h nx q : nedge (mk_nnode [] nx) (Some q) (S (length h)) -> co (h ++ [mk_nnode [] nx; nnode_default]) (mk_nfa [length h; S (length h)] (length h) (S (length h))).
Proof.
  intros Hq p [<-|[<-|[]]]; [|apply reach_refl]. exists [q]. eapply p_chr; [|constructor]. cbn [nfa_end].
  exists (mk_nnode [] nx). split; auto. rewrite nth_error_app2, Nat.sub_diag by lia. reflexivity.
Qed.

Theorem lively_co k : wf_hir k -> lively k = true -> forall h0 h n, okh h0 -> nfa_of k h0 = NOk (h, n) -> co h n.
Proof.
  induction k as [|c|b|rs|rs| | |kd g k IH|k IH|hs IH|hs IH] using hir_ind'; intros Hwf Hl h0 h n Hok Hk; try discriminate.
  - cbn [nfa_of] in Hk. inversion Hk; subst. intros p [<-|[]]. apply reach_refl.
  - cbn [nfa_of] in Hk. inversion Hk; subst. apply (atom_co _ _ c). exists (c, c + 1)%N, [S (length h0)]. simpl. repeat split; auto; simpl; lia.
  - cbn [nfa_of] in Hk. cbv zeta in Hk. inversion Hk; subst. destruct rs as [|[lo hi] rs]; [discriminate|]. apply (atom_co _ _ lo).
    exists (lo, (hi + 1)%N), [S (length h0)]. split; [|split; [|simpl; auto]].
    + cbn [n_next]. apply class_map; [exact Hwf|intros a b _ []|]. right. exists (lo, hi). simpl. auto.
    + simpl in Hwf. destruct Hwf as [Hr _]. inversion Hr; subst. simpl in H1. split; simpl; lia.
  - cbn [nfa_of] in Hk. destruct (nfa_of_spec k (proj2 Hwf) h0 Hok) as [(h1 & i & E1 & (Ok1 & _ & W1 & M1) & _)|(e & E1 & _)]; [|rewrite E1 in Hk; discriminate].
    rewrite E1 in Hk. cbn [nbind] in Hk. exact (mk_rep_co kd _ _ _ _ _ _ W1 Ok1 M1 (IH (proj2 Hwf) Hl _ _ _ Hok E1) Hk).
  - cbn [nfa_of] in Hk. eapply IH; eauto.
  - cbn [nfa_of] in Hk. destruct Hwf as [_ Hwf]. simpl in Hl. revert h0 h n Hok Hk. induction IH as [|x l Hx Hl' IHl]; intros h0 h n Hok Hk; [discriminate|].
    destruct Hwf as [Wx Wl]. apply andb_prop in Hl as [Lx Ll]. destruct l as [|y l]; [eapply Hx; eauto|].
    assert (Hne : y :: l <> []) by congruence.
    destruct (nfa_of_spec (HConcat (y :: l)) (conj Hne Wl) h0 Hok) as [(h1 & r & E1 & (Ok1 & _ & W1 & _) & _)|(e & E1 & _)].
    2:{ cbn [nfa_of] in E1. rewrite E1 in Hk. discriminate. }
    cbn [nfa_of] in E1. rewrite E1 in Hk. cbn [nbind] in Hk.
    assert (C1 : co h1 r) by first [exact (IHl Wl Ll h0 h1 r Hok E1)|exact (IHl Ll Wl h0 h1 r Hok E1)].
    destruct (nfa_of_spec x Wx h1 Ok1) as [(h2 & m & E2 & (Ok2 & A2 & W2 & _) & _)|(e & E2 & _)]; [|rewrite E2 in Hk; discriminate].
    rewrite E2 in Hk. cbn [nbind] in Hk. inversion Hk; subst.
    assert (C2 : co h2 m) by exact (Hx Wx Lx h1 h2 m Ok1 E2). destruct (wfn_lo _ _ _ W2) as [_ L2].
    assert (S2 : sub h1 h2) by (apply sub_agree; auto).
    assert (S3 : sub h2 (add_eps h2 (nfa_end m) (nfa_begin r))) by (apply sub_add; lia).
    assert (C1' : toE (add_eps h2 (nfa_end m) (nfa_begin r)) (nfa_nodes r) (nfa_end r)).
    { eapply toE_sub; [exact S3|]. eapply toE_sub; [exact S2|exact C1]. }
    unfold co. cbn [nfa_nodes nfa_end]. apply toE_app; auto. eapply toE_trans; [eapply toE_sub; [exact S3|exact C2]|].
    eapply reach_trans; [apply reach_add; lia|]. apply C1'. apply (wf_begin _ _ _ W1).
  - cbn [nfa_of] in Hk. cbv zeta in Hk. simpl in Hl. apply andb_prop in Hl as [Hne Hl].
    destruct (alt_start h0 Hok) as [Hal _].
    set (b := length h0) in *. set (e := S b) in *. set (h1 := h0 ++ [nnode_default; nnode_default]) in *.
    match type of Hk with nbind (?g hs h1 [b; e]) _ = _ => set (go := g) in Hk end.
    assert (Hgo : forall l, Forall (fun k => wf_hir k -> lively k = true -> forall h0 h n, okh h0 -> nfa_of k h0 = NOk (h, n) -> co h n) l ->
       (fix go l := match l with [] => True | x :: l' => wf_hir x /\ go l' end) l ->
       all_lively l = true ->
       forall h nodes L h' nodes', alting b h b e nodes L -> (forall p, In p nodes -> p <> b -> reach h p e) -> reach h b e \/ l <> [] ->
       go l h nodes = NOk (h', nodes') -> toE h' nodes' e).
    { clear. induction 1 as [|x l Hx Hl IHl]; intros Hwf Hlv h nodes L h' nodes' Hal Hn Hb Hg.
      - simpl in Hg. inversion Hg; subst. destruct Hb as [Hb|Hb]; [|congruence]. intros p Hp. destruct (Nat.eq_dec p b) as [->|Hne]; auto.
      - destruct Hwf as [Wx Wl]. simpl in Hlv. apply andb_prop in Hlv as [Lx Ll]. simpl in Hg.
        destruct (nfa_of_spec x Wx h (al_ok _ _ _ _ _ _ Hal)) as [(h1 & n & E1 & Bt & _)|(er & E1 & _)]; [|rewrite E1 in Hg; discriminate].
        rewrite E1 in Hg. cbn [nbind] in Hg. destruct (alting_step _ _ _ _ _ _ _ _ _ Hal Bt) as [Hal' _].
        assert (C1 : co h1 n) by exact (Hx Wx Lx h h1 n (al_ok _ _ _ _ _ _ Hal) E1). destruct Bt as (Ok1 & A1 & W1 & _).
        destruct (wfn_lo _ _ _ W1) as [L1 L2]. assert (Lb := al_range _ _ _ _ _ _ Hal b (al_b _ _ _ _ _ _ Hal)).
        assert (S0 : sub h h1) by (apply sub_agree; auto). destruct A1 as [A1 _].
        set (ha := add_eps h1 b (nfa_begin n)) in *. set (hb := add_eps ha (nfa_end n) e) in *.
        assert (Sa : sub h1 ha) by (apply sub_add; lia). assert (La : nfa_end n < length ha) by (unfold ha; rewrite add_eps_length; lia).
        assert (Sb : sub ha hb) by (apply sub_add; auto).
        assert (Cn : toE hb (nfa_nodes n) e).
        { eapply toE_trans; [eapply toE_sub; [exact Sb|]; eapply toE_sub; [exact Sa|exact C1]|]. apply reach_add; auto. }
        eapply (IHl Wl Ll hb (nodes ++ nfa_nodes n)); [exact Hal'| | |exact Hg].
        + intros p Hp Hne. apply in_app_iff in Hp as [Hp|Hp]; [|auto]. eapply reach_sub; [exact Sb|]. eapply reach_sub; [exact Sa|]. eapply reach_sub; [exact S0|]. auto.
        + left. eapply reach_trans; [eapply reach_sub; [exact Sb|]; apply reach_add; lia|]. apply Cn. apply (wf_begin _ _ _ W1). }
    destruct (go hs h1 [b; e]) as [[h' nodes']|er|] eqn:Eg; try discriminate. simpl in Hk. inversion Hk; subst.
    unfold co. cbn [nfa_nodes nfa_end]. eapply (Hgo hs IH Hwf Hl h1 [b; e]); [exact Hal| |right; destruct hs; congruence|exact Eg].
    intros p [<-|[<-|[]]] Hp; [congruence|apply reach_refl].
Qed.

Lemma path_prefix R x w y : path R x w y -> forall u v, w = u ++ v -> exists q, path R x u q.
Proof.
  induction 1 as [x|x y z w Hr Hp IH|x c y w z Hr Hp IH]; intros u v Hw.
  - destruct u; [|discriminate]. exists x. constructor.
  - destruct (IH u v Hw) as [q Hq]. exists q. eapply p_eps; eauto.
  - destruct u as [|d u]; [exists x; constructor|]. simpl in Hw. inversion Hw; subst. destruct (IH u v eq_refl) as [q Hq]. exists q. eapply p_chr; eauto.
Qed.
