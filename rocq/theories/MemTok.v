(** All patterns together on a real memory (for C83). *)
From Coq Require Import Permutation.
From Verif Require Import Lib Hir NfaPath NfaModel NfaProofs MemModel MemProofs MemRep MemNfa.

(** *** From addresses to positions *)
Lemma flat_set m (f F : nat -> option nat) l r : (forall p q, f p = Some q -> F (at_ m p) = Some q) ->
  nmapM (fun p => n_of_opt (f p)) l = NOk r -> exists r', nmapM (fun p => n_of_opt (F p)) (img_set m l) = NOk r' /\ to_set r' = to_set r.
Proof.
  intros HF H. apply nmapM_elems in H.
  assert (H1 : forall p, In p l -> exists q, f p = Some q /\ In q r).
  { intros p Hp. destruct (Forall2_In_l _ _ _ _ H Hp) as (q & Hq & E0). exists q. split; auto. destruct (f p); simpl in E0; inversion E0; auto. }
  assert (H2 : forall q, In q r -> exists p, f p = Some q /\ In p l).
  { intros q Hq. destruct (Forall2_In_r _ _ _ _ H Hq) as (p & Hp & E0). exists p. split; auto. destruct (f p); simpl in E0; inversion E0; auto. }
  exists (map (fun a => match F a with Some b => b | None => 0 end) (img_set m l)). split.
  - apply nmapM_all. intros a Ha. unfold img_set in Ha. apply In_to_set, in_map_iff in Ha as (p & <- & Hp). destruct (H1 p Hp) as (q & Hq & _). rewrite (HF _ _ Hq). reflexivity.
  - apply set_of_same. intros x. rewrite !in_map_iff. unfold img_set. split.
    + intros (a & <- & Ha). apply In_to_set, in_map_iff in Ha as (p & <- & Hp). destruct (H1 p Hp) as (q & Hq & Hr). rewrite (HF _ _ Hq). auto.
    + intros Hq. destruct (H2 x Hq) as (p & Hp & Hl). exists (at_ m p). rewrite (HF _ _ Hp). split; auto. apply In_to_set, in_map. auto.
Qed.
Lemma flat_node m (f F : nat -> option nat) nd nw : (forall p q, f p = Some q -> F (at_ m p) = Some q) ->
  copy_node f nd = NOk nw -> copy_node F (img m nd) = NOk nw.
Proof.
  intros HF H. unfold copy_node in *. destruct (nmapM _ (n_eps nd)) as [e| |] eqn:E1; simpl in H; try discriminate.
  destruct (nmapM _ (n_next nd)) as [nx| |] eqn:E2; simpl in H; try discriminate. injection H as <-. unfold img at 1 2. cbn [n_eps n_next].
  destruct (flat_set m f F _ _ HF E1) as (e' & E1' & Hs). rewrite E1'. cbn [nbind].
  assert (G : forall l r, nmapM (fun kv : crange * list nat => ndo v <- nmapM (fun p => n_of_opt (f p)) (snd kv); NOk (fst kv, to_set v)) l = NOk r ->
    nmapM (fun kv : crange * list nat => ndo v <- nmapM (fun p => n_of_opt (F p)) (snd kv); NOk (fst kv, to_set v)) (map (fun x => (fst x, img_set m (snd x))) l) = NOk r).
  { induction l as [|[k v] l IH]; intros r Hr; [injection Hr as <-; reflexivity|]. cbn [nmapM map fst snd] in *. destruct (nmapM _ v) as [y| |] eqn:Ey; simpl in Hr; try discriminate.
    destruct (nmapM _ l) as [ys| |] eqn:Eys; simpl in Hr; try discriminate. injection Hr as <-. destruct (flat_set m f F _ _ HF Ey) as (y' & Ey' & Hy). rewrite Ey'. cbn [nbind]. rewrite (IH _ eq_refl). cbn [nbind]. rewrite Hy. reflexivity. }
  rewrite (G _ _ E2). cbn [nbind]. rewrite Hs. reflexivity.
Qed.

Lemma pos_In nodes p i : pos_of nodes p = Some i -> In p nodes.
Proof. unfold pos_of. revert i. induction nodes as [|y l IH]; simpl; intros i H; [discriminate|]. destruct (Nat.eqb p y) eqn:E; [apply Nat.eqb_eq in E; auto|]. destruct (index_of Nat.eqb p l) eqn:E1; [|discriminate]. right. eapply IH; eauto. Qed.

(** *** An NFA is copied and dropped *)
Lemma sim_embed h m L s n base news b e : sim h m (owned n) L s -> (forall p, In p (owned n) -> ~ In p L) -> embed h n base = NOk (news, b, e) ->
  exists s', c_embed (img_nfa m n) base s = COk (news, b, e) s' /\ sim h m [] L s'.
Proof.
  intros S Hl H. unfold embed in H. cbv zeta in H. pose (f := fun p => option_map (fun i => base + i) (pos_of (nfa_nodes n) p)). fold f in H.
  change (option_map (fun i => base + i) (pos_of (nfa_nodes n) (nfa_begin n))) with (f (nfa_begin n)) in H. change (option_map (fun i => base + i) (pos_of (nfa_nodes n) (nfa_end n))) with (f (nfa_end n)) in H.
  destruct (f (nfa_end n)) as [e0|] eqn:Ee; cbn [nbind n_of_opt] in H; try discriminate. destruct (f (nfa_begin n)) as [b0|] eqn:Eb; cbn [nbind n_of_opt] in H; try discriminate.
  destruct (nmapM _ (nfa_nodes n)) as [olds| |] eqn:E1; cbn [nbind n_of_opt] in H; try discriminate. destruct (nmapM _ olds) as [news0| |] eqn:E2; cbn [nbind n_of_opt] in H; try discriminate. injection H as <- <- <-.
  pose (F := fun a => option_map (fun i => base + i) (pos_of (map (at_ m) (nfa_nodes n)) a)).
  assert (Hon : forall p, In p (nfa_nodes n) -> In p (owned n)) by (intros; inn).
  assert (HF : forall p q, f p = Some q -> F (at_ m p) = Some q).
  { intros p q Hp. unfold f in Hp. destruct (pos_of (nfa_nodes n) p) as [i|] eqn:Ei; simpl in Hp; [|discriminate]. unfold F. rewrite pos_img, Ei; auto; [|eapply pos_In; eauto]. intros i' j' Hi' Hj'. apply (s_inj _ _ _ _ _ S); auto. }
  assert (HM : cmapM (fun p => cdo nd <- peek p; lift (copy_node F nd)) (map (at_ m) (nfa_nodes n)) s = COk news0 s).
  { clearbody f F. clear - S Hl HF E1 E2 Hon. apply nmapM_elems in E1. apply nmapM_elems in E2. revert olds news0 E1 E2 Hon. induction (nfa_nodes n) as [|p l IH]; intros olds news E1 E2 Hon; inversion E1; subst; inversion E2; subst; [reflexivity|].
    cbn [map cmapM]. destruct (nth_error h p) as [nd|] eqn:En; simpl in H1; [|discriminate]. injection H1 as <-.
    assert (Hp : In p (owned n)) by (apply Hon; left; auto). pose proof (sim_peek _ _ _ _ _ _ _ S Hp (Hl p Hp) En) as Ep.
    assert (Ex : (cdo nd0 <- peek (at_ m p); lift (copy_node F nd0)) s = COk y0 s) by (rewrite (cbind_ok _ _ _ _ _ Ep); unfold lift; rewrite (flat_node _ _ _ _ _ HF H2); reflexivity).
    rewrite (cbind_ok _ _ _ _ _ Ex). erewrite cbind_ok; [|eapply IH; eauto; intros; apply Hon; right; auto]. reflexivity. }
  assert (S0 : sim h m (owned n ++ []) L s) by (rewrite app_nil_r; exact S). destruct (sim_release_all _ _ _ _ _ _ S0 Hl) as (s1 & E3 & S1).
  exists s1. split; auto. unfold c_embed. cbv zeta. cbn [img_nfa nfa_nodes nfa_begin nfa_end].
  change (option_map (fun i => base + i) (pos_of (map (at_ m) (nfa_nodes n)) (at_ m (nfa_end n)))) with (F (at_ m (nfa_end n))). rewrite (HF _ _ Ee).
  change (option_map (fun i => base + i) (pos_of (map (at_ m) (nfa_nodes n)) (at_ m (nfa_begin n)))) with (F (at_ m (nfa_begin n))). rewrite (HF _ _ Eb).
  erewrite cbind_ok; [|reflexivity]. erewrite cbind_ok; [|reflexivity]. fold F. rewrite (cbind_ok _ _ _ _ _ HM).
  unfold drop_nfa. fold (img_nfa m n). rewrite owned_img. rewrite (cbind_ok _ _ _ _ _ E3). reflexivity.
Qed.
Lemma embed_ne h n base e : embed h n base <> NErr e.
Proof.
  unfold embed, copy_node. repeat (apply nbind_ne; [|intros]); try discriminate; try apply of_opt_ne; apply nmapM_ne; intros; try apply of_opt_ne.
  repeat (apply nbind_ne; [|intros]); try discriminate; apply nmapM_ne; intros; try apply of_opt_ne. repeat (apply nbind_ne; [|intros]); try discriminate; apply nmapM_ne; intros; try apply of_opt_ne.
Qed.

Lemma sim_nil k : sim [] [] [] [] (mk_store [] k).
Proof. split; simpl; auto; try tauto; intros; try (destruct i; discriminate); contradiction. Qed.
Lemma nil_sim h m s : sim h m [] [] s -> exists k, s = mk_store [] k.
Proof.
  intros S. destruct s as [cs k]. exists k. f_equal. destruct cs as [|[a c] cs]; auto. exfalso.
  destruct (s_dom _ _ _ _ _ S a) as (i & [] & _). unfold look. cbn [st_cells aget]. rewrite Nat.eqb_refl. discriminate.
Qed.

Section Alloc.
  Variable al : nat -> list nat -> nat.
  Hypothesis fresh : forall t l, ~ In (al t l) l.

  Lemma sim_loop ps : forall nodes beps ends k,
    match tnfa_loop ps nodes beps ends with
    | NOk r => exists k', c_loop al ps nodes beps ends (mk_store [] k) = COk r (mk_store [] k')
    | NErr e => exists k', c_loop al ps nodes beps ends (mk_store [] k) = CErr e (mk_store [] k')
    | NPanic => True
    end.
  Proof.
    induction ps as [|p ps IH]; intros nodes beps ends k; [exists k; reflexivity|]. cbn [tnfa_loop c_loop].
    pose proof (builds_all al fresh p [] [] [] [] (mk_store [] k) (sim_nil k)) as B. destruct (nfa_of p []) as [[h n]|e|]; cbn [nbind]; [|destruct B as (h' & m' & s' & E & _ & S'); destruct (nil_sim _ _ _ S') as [k' ->]; exists k'; apply cbind_err; auto|exact I].
    destruct B as (m & s & E & _ & S & _). rewrite app_nil_r in S. destruct (embed h n (length nodes)) as [[[news b] e]|e|] eqn:Ee; cbn [nbind]; [|exfalso; eapply embed_ne; eauto|exact I].
    destruct (sim_embed _ _ _ _ _ _ _ _ _ S (fun _ _ x => x) Ee) as (s2 & E2 & S2). destruct (nil_sim _ _ _ S2) as [k2 ->].
    rewrite (cbind_ok _ _ _ _ _ E), (cbind_ok _ _ _ _ _ E2). apply IH.
  Qed.
  Lemma sim_tnfa ps k :
    match tnfa_of ps with
    | NOk r => exists k', c_tnfa_of al ps (mk_store [] k) = COk r (mk_store [] k')
    | NErr e => exists k', c_tnfa_of al ps (mk_store [] k) = CErr e (mk_store [] k')
    | NPanic => True
    end.
  Proof.
    unfold tnfa_of, c_tnfa_of. pose proof (sim_loop ps [] [] [] k) as H. destruct (tnfa_loop ps [] [] []) as [[[nodes beps] ends]|e|]; cbn [nbind]; auto; destruct H as (k' & E); exists k'; [rewrite (cbind_ok _ _ _ _ _ E); reflexivity|apply cbind_err; auto].
  Qed.
End Alloc.
