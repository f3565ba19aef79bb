(** Repetitions on a real memory (for C83). *)
From Coq Require Import Permutation.
From Verif Require Import Lib Hir NfaPath NfaModel NfaProofs MemModel MemProofs.

Ltac perm := apply (Permutation_count_occ Nat.eq_dec); intros ?; unfold owned; cbn [nfa_nodes nfa_begin nfa_end];
  repeat (rewrite count_occ_app || cbn [count_occ]); repeat destruct (Nat.eq_dec _ _); lia.
Ltac use_perm S O' := apply (sim_perm _ _ _ O') in S; [|perm].
Ltac inn := repeat (rewrite ?in_app_iff in *; cbn [In owned nfa_nodes nfa_begin nfa_end] in *; unfold owned in * ); tauto.

Lemma notL h m O L s p : sim h m O L s -> length h <= p -> ~ In p L.
Proof. intros S Hp Hl. apply (s_lock _ _ _ _ _ S) in Hl. apply (s_bound _ _ _ _ _ S) in Hl. lia. Qed.
Lemma own_lt h m O L s p : sim h m O L s -> In p O -> p < length m.
Proof. intros S Hp. rewrite (s_len _ _ _ _ _ S). eapply s_bound; eauto. Qed.
Lemma own_lth h m O L s p : sim h m O L s -> In p O -> p < length h.
Proof. intros S Hp. eapply s_bound; eauto. Qed.

Lemma img_old m m' n O (H : pre m m') h L s : sim h m O L s -> (forall p, In p (owned n) -> In p O) -> img_nfa m n = img_nfa m' n.
Proof. intros S Hn. symmetry. apply pre_nfa; auto. intros p Hp. eapply own_lt; eauto. Qed.

Section Alloc.
  Variable al : nat -> list nat -> nat.
  Hypothesis fresh : forall t l, ~ In (al t l) l.

  Lemma sim_chain_gen (skip : bool) k : forall h m O L s i nodes e h' nodes' e',
    sim h m (nodes ++ e :: O) L s -> (forall p, In p (owned i) -> In p O /\ ~ In p L) -> ~ In e L ->
    (if skip then chain_skip k i h nodes e else chain k i h nodes e) = NOk (h', nodes', e') ->
    exists m' s', (if skip then c_chain_skip al k (img_nfa m i) (map (at_ m) nodes) (at_ m e) else c_chain al k (img_nfa m i) (map (at_ m) nodes) (at_ m e)) s = COk (map (at_ m') nodes', at_ m' e') s' /\
      pre m m' /\ sim h' m' (nodes' ++ e' :: O) L s' /\ (forall p, In p (e' :: nodes') -> In p (e :: nodes) \/ length h <= p) /\ length h <= length h'.
  Proof.
    induction k as [|k IH]; intros h m O L s i nodes e h' nodes' e' S Hi He Hc.
    - assert (E0 : NOk (h, nodes, e) = NOk (h', nodes', e')) by (destruct skip; exact Hc). injection E0 as <- <- <-. exists m, s. split; [destruct skip; reflexivity|]. split; [apply pre_refl|]. split; auto.
    - assert (Hcl : exists h1 c, clone h i = NOk (h1, c) /\ (if skip then chain_skip k i (add_eps (add_eps h1 e (nfa_begin c)) e (nfa_end i)) (nodes ++ nfa_nodes c) (nfa_end c) else chain k i (add_eps h1 e (nfa_begin c)) (nodes ++ nfa_nodes c) (nfa_end c)) = NOk (h', nodes', e')).
      { destruct skip; cbn [chain chain_skip] in Hc; destruct (clone h i) as [[h1 c]| |]; cbn [nbind] in Hc; try discriminate; eauto. }
      clear Hc. destruct Hcl as (h1 & c & Hcl & Hc).
      assert (Hf : fine h (nodes ++ e :: O) L i) by (intros p Hp; destruct (Hi p Hp); split; auto; inn).
      destruct (sim_clone al fresh _ _ _ _ _ _ _ _ S Hf Hcl) as (m1 & s1 & E1 & P1 & S1 & Hge & Hlen).
      assert (Ee : at_ m e = at_ m1 e) by (symmetry; apply pre_at; auto; eapply own_lt; eauto; inn).
      assert (En : map (at_ m) nodes = map (at_ m1) nodes) by (symmetry; apply pre_map; auto; intros p Hp; eapply own_lt; eauto; inn).
      assert (Ei : img_nfa m i = img_nfa m1 i) by (symmetry; apply pre_nfa; auto; intros p Hp; eapply own_lt; eauto; destruct (Hi p Hp); inn).
      rewrite Ee, En, Ei in *.
      assert (Hb : In (nfa_begin c) (owned c)) by inn. assert (Hec : In (nfa_end c) (owned c)) by inn.
      assert (Hei : In (nfa_end i) O) by (apply Hi; inn).
      set (h2 := if skip then add_eps (add_eps h1 e (nfa_begin c)) e (nfa_end i) else add_eps h1 e (nfa_begin c)).
      assert (HW : exists s2, (if skip then write2 (at_ m1 e) (at_ m1 (nfa_begin c)) (at_ m1 (nfa_end i)) else write (at_ m1 e) (to_eps (at_ m1 (nfa_begin c)))) s1 = COk tt s2 /\ sim h2 m1 (owned c ++ nodes ++ e :: O) L s2).
      { unfold h2. destruct skip; [eapply sim_write2|eapply sim_write]; eauto; try inn; eapply own_lth; eauto; inn. }
      destruct HW as (s2 & E2 & S2). use_perm S2 (e :: nfa_begin c :: nfa_end c :: nfa_nodes c ++ nodes ++ O).
      destruct (sim_release _ _ _ _ _ _ S2) as (s3 & E3 & S3); [tauto|].
      destruct (sim_release _ _ _ _ _ _ S3) as (s4 & E4 & S4); [intros H; exfalso; revert H; eapply notL; [exact S|]; auto|].
      use_perm S4 ((nodes ++ nfa_nodes c) ++ nfa_end c :: O).
      assert (Hl2 : length h2 = length h1) by (unfold h2; destruct skip; rewrite !add_eps_length; auto).
      destruct (IH h2 m1 O L s4 i (nodes ++ nfa_nodes c) (nfa_end c) h' nodes' e') as (m' & s' & E5 & P5 & S5 & G5 & L5); auto.
      { eapply notL; [exact S|]. auto. }
      { unfold h2. destruct skip; exact Hc. }
      exists m', s'. split; [|split; [eapply pre_trans; eauto|]].
      + rewrite map_app in E5. destruct skip; cbn [c_chain c_chain_skip]; rewrite (cbind_ok _ _ _ _ _ E1); cbn [img_nfa nfa_begin nfa_end nfa_nodes]; rewrite (cbind_ok _ _ _ _ _ E2), (cbind_ok _ _ _ _ _ E3), (cbind_ok _ _ _ _ _ E4); exact E5.
      + split; auto. split; [|lia]. intros p Hp. destruct (G5 p Hp) as [Hq|Hq]; [|right; lia].
        destruct Hq as [<-|Hq]; [right; auto|]. apply in_app_or in Hq as [Hq|Hq]; [left; right; auto|right; apply Hge; inn].
  Qed.
  Lemma sim_chain k h m O L s i nodes e h' nodes' e' : sim h m (nodes ++ e :: O) L s -> (forall p, In p (owned i) -> In p O /\ ~ In p L) -> ~ In e L -> chain k i h nodes e = NOk (h', nodes', e') ->
    exists m' s', c_chain al k (img_nfa m i) (map (at_ m) nodes) (at_ m e) s = COk (map (at_ m') nodes', at_ m' e') s' /\
      pre m m' /\ sim h' m' (nodes' ++ e' :: O) L s' /\ (forall p, In p (e' :: nodes') -> In p (e :: nodes) \/ length h <= p) /\ length h <= length h'.
  Proof. exact (sim_chain_gen false k h m O L s i nodes e h' nodes' e'). Qed.
  Lemma sim_chain_skip k h m O L s i nodes e h' nodes' e' : sim h m (nodes ++ e :: O) L s -> (forall p, In p (owned i) -> In p O /\ ~ In p L) -> ~ In e L -> chain_skip k i h nodes e = NOk (h', nodes', e') ->
    exists m' s', c_chain_skip al k (img_nfa m i) (map (at_ m) nodes) (at_ m e) s = COk (map (at_ m') nodes', at_ m' e') s' /\
      pre m m' /\ sim h' m' (nodes' ++ e' :: O) L s' /\ (forall p, In p (e' :: nodes') -> In p (e :: nodes) \/ length h <= p) /\ length h <= length h'.
  Proof. exact (sim_chain_gen true k h m O L s i nodes e h' nodes' e'). Qed.

  (** what a step that turns the NFA [i] into [n] must do *)
  Definition does (c : nfa -> M nfa) (h : heap) (i : nfa) (h' : heap) (n : nfa) : Prop := forall m O L s,
    sim h m (owned i ++ O) L s -> (forall p, In p (owned i) -> ~ In p L) ->
    exists m' s', c (img_nfa m i) s = COk (img_nfa m' n) s' /\ pre m m' /\ sim h' m' (owned n ++ O) L s' /\ (forall p, In p (owned n) -> In p (owned i) \/ length h <= p) /\ length h <= length h'.

  Lemma does_opt h i : does c_opt h i (add_eps h (nfa_begin i) (nfa_end i)) i.
  Proof.
    intros m O L s S Hl. destruct (sim_write _ _ _ _ _ (nfa_begin i) (nfa_end i) S) as (s1 & E1 & S1); [inn|apply Hl; inn|eapply own_lth; eauto; inn|].
    exists m, s1. split; [unfold c_opt; exact (cbind_ok _ _ _ _ _ E1)|]. split; [apply pre_refl|]. split; auto. split; auto. rewrite add_eps_length. auto.
  Qed.
  Lemma does_plus h i : does c_plus h i (add_eps h (nfa_end i) (nfa_begin i)) i.
  Proof.
    intros m O L s S Hl. destruct (sim_write _ _ _ _ _ (nfa_end i) (nfa_begin i) S) as (s1 & E1 & S1); [inn|apply Hl; inn|eapply own_lth; eauto; inn|].
    exists m, s1. split; [unfold c_plus; exact (cbind_ok _ _ _ _ _ E1)|]. split; [apply pre_refl|]. split; auto. split; auto. rewrite add_eps_length. auto.
  Qed.
  Lemma does_star h i : does c_star h i (add_eps h (nfa_end i) (nfa_begin i)) (mk_nfa (nfa_nodes i) (nfa_begin i) (nfa_begin i)).
  Proof.
    intros m O L s S Hl. destruct (sim_write _ _ _ _ _ (nfa_end i) (nfa_begin i) S) as (s1 & E1 & S1); [inn|apply Hl; inn|eapply own_lth; eauto; inn|].
    destruct (sim_retain _ _ _ _ _ (nfa_begin i) S1) as (s2 & E2 & S2); [inn|]. use_perm S2 (nfa_end i :: (nfa_nodes i ++ [nfa_begin i; nfa_begin i]) ++ O).
    destruct (sim_release _ _ _ _ _ _ S2) as (s3 & E3 & S3); [intros H; exfalso; revert H; apply Hl; inn|].
    exists m, s3. split; [unfold c_star; cbn [img_nfa nfa_begin nfa_end nfa_nodes]; rewrite (cbind_ok _ _ _ _ _ E1), (cbind_ok _ _ _ _ _ E2), (cbind_ok _ _ _ _ _ E3); reflexivity|].
    split; [apply pre_refl|]. split; auto. rewrite add_eps_length. split; auto. intros p Hp. left. inn.
  Qed.
  Lemma does_zero h i : does (c_zero al) h i (fst (mk_zero h)) (snd (mk_zero h)).
  Proof.
    intros m O L s S Hl. cbn [mk_zero alloc fst snd]. destruct (sim_new al fresh _ _ _ _ _ S) as (a & s1 & E1 & S1). set (p := length h) in *.
    assert (Ea : a = at_ (m ++ [a]) p). { unfold at_. rewrite app_nth2, (s_len _ _ _ _ _ S) by (rewrite (s_len _ _ _ _ _ S); auto). unfold p. rewrite Nat.sub_diag. reflexivity. }
    destruct (sim_retain _ _ _ _ _ p S1) as (s2 & E2 & S2); [left; auto|]. destruct (sim_retain _ _ _ _ _ p S2) as (s3 & E3 & S3); [left; auto|]. rewrite <- Ea in E2, E3.
    use_perm S3 (owned i ++ [p; p; p] ++ O). destruct (sim_release_all _ _ _ _ _ _ S3 Hl) as (s4 & E4 & S4). rewrite <- owned_img, (pre_nfa m) in E4.
    - exists (m ++ [a]), s4. split; [unfold c_zero; rewrite (cbind_ok _ _ _ _ _ E1), (cbind_ok _ _ _ _ _ E2), (cbind_ok _ _ _ _ _ E3); unfold drop_nfa; rewrite (cbind_ok _ _ _ _ _ E4); unfold ret, img_nfa; cbn [nfa_nodes nfa_begin nfa_end map]; rewrite <- Ea; reflexivity|].
      split; [eexists; reflexivity|]. split; [exact S4|]. split; [|rewrite app_length; lia]. intros q Hq. right. cbn in Hq. unfold p in Hq. intuition lia.
    - eexists; reflexivity.
    - intros q Hq. eapply own_lt; [exact S|inn].
  Qed.

  (** the beginning of the four cases with clones *)
  Lemma sim_first h m O L s i h1 c : sim h m (owned i ++ O) L s -> (forall p, In p (owned i) -> ~ In p L) -> clone h i = NOk (h1, c) ->
    exists m1 s1, c_clone al (img_nfa m i) s = COk (img_nfa m1 c) s1 /\ pre m m1 /\ img_nfa m i = img_nfa m1 i /\
      sim h1 m1 (nfa_nodes c ++ nfa_end c :: nfa_begin c :: owned i ++ O) L s1 /\ (forall p, In p (owned c) -> length h <= p) /\ length h <= length h1.
  Proof.
    intros S Hl Hc. assert (Hf : fine h (owned i ++ O) L i) by (intros p Hp; split; [inn|auto]).
    destruct (sim_clone al fresh _ _ _ _ _ _ _ _ S Hf Hc) as (m1 & s1 & E1 & P1 & S1 & Hge & Hlen). exists m1, s1. split; auto. split; auto.
    split; [symmetry; apply pre_nfa; auto; intros p Hp; eapply own_lt; eauto; inn|]. split; auto. eapply sim_perm; [|exact S1]. perm.
  Qed.

  (** the four cases: after the clones the first node [b] of the copies, the nodes and the end [e] of the copies are owned *)
  Definition mid (h0 h : heap) m0 m (i : nfa) O L s b nodes e : Prop :=
    pre m0 m /\ img_nfa m0 i = img_nfa m i /\ sim h m (nodes ++ e :: b :: owned i ++ O) L s /\ (forall p, In p (b :: e :: nodes) -> length h0 <= p /\ ~ In p L) /\ length h0 <= length h.
  Lemma mid_first h m O L s i h1 c : sim h m (owned i ++ O) L s -> (forall p, In p (owned i) -> ~ In p L) -> clone h i = NOk (h1, c) ->
    exists m1 s1, c_clone al (img_nfa m i) s = COk (img_nfa m1 c) s1 /\ mid h h1 m m1 i O L s1 (nfa_begin c) (nfa_nodes c) (nfa_end c).
  Proof.
    intros S Hl Hc. destruct (sim_first _ _ _ _ _ _ _ _ S Hl Hc) as (m1 & s1 & E1 & P1 & Ei & S1 & Hge & L1). exists m1, s1. split; auto.
    repeat (split; auto); intros; assert (Hp : length h <= p) by (apply Hge; inn); auto; eapply notL; [exact S|lia].
  Qed.
  Lemma mid_chain (skip : bool) k h0 m0 h m O L s i b nodes e h' nodes' e' : mid h0 h m0 m i O L s b nodes e -> (forall p, In p (owned i) -> ~ In p L) ->
    (if skip then chain_skip k i h nodes e else chain k i h nodes e) = NOk (h', nodes', e') ->
    exists m' s', (if skip then c_chain_skip al k (img_nfa m i) (map (at_ m) nodes) (at_ m e) else c_chain al k (img_nfa m i) (map (at_ m) nodes) (at_ m e)) s = COk (map (at_ m') nodes', at_ m' e') s' /\
      at_ m b = at_ m' b /\ img_nfa m i = img_nfa m' i /\ mid h0 h' m0 m' i O L s' b nodes' e'.
  Proof.
    intros (P & Ei & S & Hge & Hlen) Hl Hc. destruct (sim_chain_gen skip k h m (b :: owned i ++ O) L s i nodes e h' nodes' e') as (m' & s' & E2 & P2 & S2 & G2 & L2); auto.
    { intros p Hp. split; [inn|auto]. } { apply Hge. inn. }
    assert (Ei2 : img_nfa m i = img_nfa m' i). { symmetry. apply pre_nfa; auto. intros p Hp. eapply own_lt; [exact S|]. inn. }
    exists m', s'. split; auto. split; [symmetry; apply pre_at; auto; eapply own_lt; [exact S|inn]|]. split; auto.
    split; [eapply pre_trans; eauto|]. split; [congruence|]. split; auto. split; [|lia].
    intros p [<-|Hp]; [apply Hge; inn|]. destruct (G2 p Hp) as [Hq|Hq]; [apply Hge; inn|]. split; [lia|]. eapply notL; [exact S|auto].
  Qed.
  (** the end of the four cases *)
  Lemma mid_end h0 h m0 m i O L s b nodes e n : mid h0 h m0 m i O L s b nodes e -> (forall p, In p (owned n) -> In p (owned i) \/ In p (b :: e :: nodes)) -> forall h' s', length h' = length h -> sim h' m (owned n ++ O) L s' ->
    pre m0 m /\ sim h' m (owned n ++ O) L s' /\ (forall p, In p (owned n) -> In p (owned i) \/ length h0 <= p) /\ length h0 <= length h'.
  Proof.
    intros (P & Ei & S & Hge & Hlen) Hn h' s' Hh S'. split; auto. split; auto. split; [|lia]. intros p Hp. destruct (Hn p Hp) as [|Hq]; auto. right. apply Hge. auto.
  Qed.
  Lemma img_i m m' i : img_nfa m i = img_nfa m' i -> map (at_ m) (nfa_nodes i) = map (at_ m') (nfa_nodes i) /\ at_ m (nfa_begin i) = at_ m' (nfa_begin i) /\ at_ m (nfa_end i) = at_ m' (nfa_end i).
  Proof. intros E. injection E. auto. Qed.

  Ltac rel := intros X; exfalso; revert X; auto; fail.
  Lemma does_exactly n h i h' r : mk_exactly n h i = NOk (h', r) -> does (c_exactly al n) h i h' r.
  Proof.
    intros H m O L s S Hl. unfold mk_exactly in H. destruct (clone h i) as [[h1 c]| |] eqn:Ec; cbn [nbind] in H; try discriminate.
    destruct (chain (n - 2) i h1 (nfa_nodes c) (nfa_end c)) as [[[h2 nodes] e]| |] eqn:Eh; cbn [nbind] in H; try discriminate. injection H as <- <-.
    destruct (mid_first _ _ _ _ _ _ _ _ S Hl Ec) as (m1 & s1 & E1 & M1).
    destruct (mid_chain false _ _ _ _ _ _ _ _ _ _ _ _ _ _ _ M1 Hl Eh) as (m2 & s2 & E2 & Eb & Ei & M2).
    pose proof M2 as (P & Ei0 & S2 & Hge & Hlen). assert (He : ~ In e L) by (apply Hge; inn). assert (Hb : ~ In (nfa_begin i) L) by (apply Hl; inn).
    destruct (sim_write _ _ _ _ _ e (nfa_begin i) S2) as (s3 & E3 & S3); [inn|auto|eapply own_lth; eauto; inn|].
    use_perm S3 (e :: nfa_begin i :: (nodes ++ nfa_nodes i ++ [nfa_begin c; nfa_end i]) ++ O).
    destruct (sim_release _ _ _ _ _ _ S3) as (s4 & E4 & S4); [tauto|]. destruct (sim_release _ _ _ _ _ _ S4) as (s5 & E5 & S5); [tauto|].
    exists m2, s5. split; [|eapply (mid_end _ _ _ _ _ _ _ _ _ _ _ _ M2); [intros p Hp; inn|apply add_eps_length|eapply sim_perm; [|exact S5]; perm]].
    unfold c_exactly. rewrite (cbind_ok _ _ _ _ _ E1). cbn [img_nfa nfa_nodes nfa_end nfa_begin]. fold (img_nfa m i). assert (Ei1 : img_nfa m i = img_nfa m1 i) by apply M1. rewrite Ei1. rewrite (cbind_ok _ _ _ _ _ E2).
    destruct (img_i _ _ _ Ei0) as (En & Eb0 & Ee). rewrite Eb0.
    rewrite (cbind_ok _ _ _ _ _ E3), (cbind_ok _ _ _ _ _ E4), (cbind_ok _ _ _ _ _ E5). unfold ret, img_nfa. cbn [nfa_nodes nfa_begin nfa_end]. rewrite map_app, En, Eb, Ee. reflexivity.
  Qed.
  Lemma does_at_least n h i h' r : mk_at_least n h i = NOk (h', r) -> does (c_at_least al n) h i h' r.
  Proof.
    intros H m O L s S Hl. unfold mk_at_least in H. destruct (clone h i) as [[h1 c]| |] eqn:Ec; cbn [nbind] in H; try discriminate.
    destruct (chain (n - 1) i h1 (nfa_nodes c) (nfa_end c)) as [[[h2 nodes] e]| |] eqn:Eh; cbn [nbind] in H; try discriminate. injection H as <- <-.
    destruct (mid_first _ _ _ _ _ _ _ _ S Hl Ec) as (m1 & s1 & E1 & M1).
    destruct (mid_chain false _ _ _ _ _ _ _ _ _ _ _ _ _ _ _ M1 Hl Eh) as (m2 & s2 & E2 & Eb & Ei & M2).
    pose proof M2 as (P & Ei0 & S2 & Hge & Hlen). assert (He : ~ In e L) by (apply Hge; inn). assert (Hb : ~ In (nfa_begin i) L) by (apply Hl; inn). assert (Hei : ~ In (nfa_end i) L) by (apply Hl; inn).
    destruct (sim_write _ _ _ _ _ e (nfa_begin i) S2) as (s3 & E3 & S3); [inn|auto|eapply own_lth; eauto; inn|].
    destruct (sim_write _ _ _ _ _ (nfa_end i) (nfa_begin i) S3) as (s4 & E4 & S4); [inn|auto|eapply own_lth; eauto; inn|].
    destruct (sim_retain _ _ _ _ _ (nfa_begin i) S4) as (s5 & E5 & S5); [inn|].
    use_perm S5 (nfa_end i :: e :: nfa_begin i :: (nodes ++ nfa_nodes i ++ [nfa_begin c; nfa_begin i]) ++ O).
    destruct (sim_release _ _ _ _ _ _ S5) as (s6 & E6 & S6); [tauto|]. destruct (sim_release _ _ _ _ _ _ S6) as (s7 & E7 & S7); [tauto|]. destruct (sim_release _ _ _ _ _ _ S7) as (s8 & E8 & S8); [tauto|].
    exists m2, s8. split; [|eapply (mid_end _ _ _ _ _ _ _ _ _ _ _ _ M2); [intros p Hp; inn|rewrite !add_eps_length; reflexivity|eapply sim_perm; [|exact S8]; perm]].
    unfold c_at_least. rewrite (cbind_ok _ _ _ _ _ E1). cbn [img_nfa nfa_nodes nfa_end nfa_begin]. fold (img_nfa m i). assert (Ei1 : img_nfa m i = img_nfa m1 i) by apply M1. rewrite Ei1. rewrite (cbind_ok _ _ _ _ _ E2).
    destruct (img_i _ _ _ Ei0) as (En & Eb0 & Ee). rewrite Eb0, Ee.
    rewrite (cbind_ok _ _ _ _ _ E3), (cbind_ok _ _ _ _ _ E4), (cbind_ok _ _ _ _ _ E5), (cbind_ok _ _ _ _ _ E6), (cbind_ok _ _ _ _ _ E7), (cbind_ok _ _ _ _ _ E8). unfold ret, img_nfa. cbn [nfa_nodes nfa_begin nfa_end]. rewrite map_app, En, Eb. reflexivity.
  Qed.
  Lemma does_bounded0 n h i h' r : mk_bounded0 n h i = NOk (h', r) -> does (c_bounded0 al n) h i h' r.
  Proof.
    intros H m O L s S Hl. unfold mk_bounded0 in H. destruct (clone h i) as [[h1 c]| |] eqn:Ec; cbn [nbind] in H; try discriminate.
    destruct (chain_skip (n - 2) i h1 (nfa_nodes c) (nfa_end c)) as [[[h2 nodes] e]| |] eqn:Eh; cbn [nbind] in H; try discriminate. injection H as <- <-.
    destruct (mid_first _ _ _ _ _ _ _ _ S Hl Ec) as (m1 & s1 & E1 & M1).
    destruct (mid_chain true _ _ _ _ _ _ _ _ _ _ _ _ _ _ _ M1 Hl Eh) as (m2 & s2 & E2 & Eb & Ei & M2).
    pose proof M2 as (P & Ei0 & S2 & Hge & Hlen). assert (He : ~ In e L) by (apply Hge; inn). assert (Hb : ~ In (nfa_begin i) L) by (apply Hl; inn). assert (Hc : ~ In (nfa_begin c) L) by (apply Hge; inn).
    destruct (sim_write2 _ _ _ _ _ e (nfa_begin i) (nfa_end i) S2) as (s3 & E3 & S3); [inn|auto|eapply own_lth; eauto; inn|eapply own_lth; eauto; inn|].
    use_perm S3 (e :: nfa_begin i :: (nodes ++ nfa_nodes i ++ [nfa_begin c; nfa_end i]) ++ O).
    destruct (sim_release _ _ _ _ _ _ S3) as (s4 & E4 & S4); [tauto|].
    destruct (sim_write _ _ _ _ _ (nfa_begin c) (nfa_end i) S4) as (s5 & E5 & S5); [inn|auto|eapply own_lth; eauto; inn|].
    destruct (sim_release _ _ _ _ _ _ S5) as (s6 & E6 & S6); [tauto|].
    exists m2, s6. split; [|eapply (mid_end _ _ _ _ _ _ _ _ _ _ _ _ M2); [intros p Hp; inn|rewrite !add_eps_length; reflexivity|eapply sim_perm; [|exact S6]; perm]].
    unfold c_bounded0. rewrite (cbind_ok _ _ _ _ _ E1). cbn [img_nfa nfa_nodes nfa_end nfa_begin]. fold (img_nfa m i). assert (Ei1 : img_nfa m i = img_nfa m1 i) by apply M1. rewrite Ei1. rewrite (cbind_ok _ _ _ _ _ E2).
    destruct (img_i _ _ _ Ei0) as (En & Eb0 & Ee). rewrite Eb0, Ee, Eb.
    rewrite (cbind_ok _ _ _ _ _ E3), (cbind_ok _ _ _ _ _ E4), (cbind_ok _ _ _ _ _ E5), (cbind_ok _ _ _ _ _ E6). unfold ret, img_nfa. cbn [nfa_nodes nfa_begin nfa_end]. rewrite map_app, En. reflexivity.
  Qed.
  Lemma does_bounded n k h i h' r : mk_bounded n k h i = NOk (h', r) -> does (c_bounded al n k) h i h' r.
  Proof.
    intros H m O L s S Hl. unfold mk_bounded in H. destruct (clone h i) as [[h1 c]| |] eqn:Ec; cbn [nbind] in H; try discriminate.
    destruct (chain (n - 1) i h1 (nfa_nodes c) (nfa_end c)) as [[[h2 nodes] e]| |] eqn:Eh; cbn [nbind] in H; try discriminate.
    destruct (chain_skip (k - n - 1) i h2 nodes e) as [[[h3 nodes3] e3]| |] eqn:Eg; cbn [nbind] in H; try discriminate. injection H as <- <-.
    destruct (mid_first _ _ _ _ _ _ _ _ S Hl Ec) as (m1 & s1 & E1 & M1).
    destruct (mid_chain false _ _ _ _ _ _ _ _ _ _ _ _ _ _ _ M1 Hl Eh) as (m2 & s2 & E2 & Eb & Ei & M2).
    destruct (mid_chain true _ _ _ _ _ _ _ _ _ _ _ _ _ _ _ M2 Hl Eg) as (m3 & s3 & E3 & Eb3 & Ei3 & M3).
    pose proof M3 as (P & Ei0 & S3 & Hge & Hlen). assert (He : ~ In e3 L) by (apply Hge; inn). assert (Hb : ~ In (nfa_begin i) L) by (apply Hl; inn).
    destruct (sim_write2 _ _ _ _ _ e3 (nfa_begin i) (nfa_end i) S3) as (s4 & E4 & S4); [inn|auto|eapply own_lth; eauto; inn|eapply own_lth; eauto; inn|].
    use_perm S4 (e3 :: nfa_begin i :: (nodes3 ++ nfa_nodes i ++ [nfa_begin c; nfa_end i]) ++ O).
    destruct (sim_release _ _ _ _ _ _ S4) as (s5 & E5 & S5); [tauto|].
    destruct (sim_release _ _ _ _ _ _ S5) as (s6 & E6 & S6); [tauto|].
    exists m3, s6. split; [|eapply (mid_end _ _ _ _ _ _ _ _ _ _ _ _ M3); [intros p Hp; inn|rewrite !add_eps_length; reflexivity|eapply sim_perm; [|exact S6]; perm]].
    unfold c_bounded. rewrite (cbind_ok _ _ _ _ _ E1). cbn [img_nfa nfa_nodes nfa_end nfa_begin]. fold (img_nfa m i). assert (Ei1 : img_nfa m i = img_nfa m1 i) by apply M1. rewrite Ei1. rewrite (cbind_ok _ _ _ _ _ E2). rewrite Ei.
    rewrite (cbind_ok _ _ _ _ _ E3).
    destruct (img_i _ _ _ Ei0) as (En & Eb0 & Ee). rewrite Eb0, Ee, Eb, Eb3.
    rewrite (cbind_ok _ _ _ _ _ E4), (cbind_ok _ _ _ _ _ E5), (cbind_ok _ _ _ _ _ E6). unfold ret, img_nfa. cbn [nfa_nodes nfa_begin nfa_end]. rewrite map_app, En. reflexivity.
  Qed.
  Lemma does_id h i : does (fun n => ret n) h i h i.
  Proof. intros m O L s S Hl. exists m, s. split; [reflexivity|]. split; [apply pre_refl|]. auto. Qed.

  Lemma does_rep k h i h' r : mk_rep k h i = NOk (h', r) -> does (c_rep al k) h i h' r.
  Proof.
    intros H. destruct k as [| | |n|n|n k]; cbn [mk_rep] in H.
    - injection H as <- <-. apply does_opt.
    - injection H as <- <-. apply does_star.
    - injection H as <- <-. apply does_plus.
    - destruct n as [|[|n]]; [injection H as <- <-; apply does_zero|injection H as <- <-; apply does_id|apply does_exactly; auto].
    - destruct n as [|n]; [injection H as <- <-; apply does_star|apply does_at_least; auto].
    - unfold c_rep. destruct n as [|[|n]]; [destruct k as [|[|k]]|destruct k as [|[|k]]|]; try (injection H as <- <-);
        try apply does_zero; try apply does_opt; try apply does_id; try (apply does_bounded0; auto; fail);
        destruct (Nat.eqb _ _); try (apply does_exactly; auto; fail); destruct (Nat.ltb _ _); try discriminate; apply does_bounded; auto.
  Qed.
End Alloc.

(** cloning and repeating never report an error *)
Lemma of_opt_ne {A} (o : option A) e : n_of_opt o <> NErr e.
Proof. destruct o; discriminate. Qed.
Lemma nbind_ne {A B} (x : nres A) (f : A -> nres B) e : x <> NErr e -> (forall a, f a <> NErr e) -> nbind x f <> NErr e.
Proof. destruct x; cbn [nbind]; intros H G; [auto| |discriminate]. intros E. injection E as ->. auto. Qed.
Lemma nmapM_ne {A B} (f : A -> nres B) l e : (forall a, f a <> NErr e) -> nmapM f l <> NErr e.
Proof. intros H. induction l; cbn [nmapM]; [discriminate|]. repeat (apply nbind_ne; auto; intros). discriminate. Qed.
Lemma clone_ne h n e : clone h n <> NErr e.
Proof.
  unfold clone, copy_node. repeat (apply nbind_ne; [|intros]); try discriminate; try apply of_opt_ne; apply nmapM_ne; intros; try apply of_opt_ne.
  repeat (apply nbind_ne; [|intros]); try discriminate; apply nmapM_ne; intros; try apply of_opt_ne. repeat (apply nbind_ne; [|intros]); try discriminate; apply nmapM_ne; intros; try apply of_opt_ne.
Qed.
Lemma chain_ne k : forall i h ns e0 e, chain k i h ns e0 <> NErr e.
Proof. induction k; intros; cbn [chain]; [discriminate|]. apply nbind_ne; [apply clone_ne|]. intros [h1 c]. apply IHk. Qed.
Lemma chain_skip_ne k : forall i h ns e0 e, chain_skip k i h ns e0 <> NErr e.
Proof. induction k; intros; cbn [chain_skip]; [discriminate|]. apply nbind_ne; [apply clone_ne|]. intros [h1 c]. apply IHk. Qed.
Ltac ne := repeat first [apply clone_ne | apply chain_ne | apply chain_skip_ne | discriminate | (apply nbind_ne; [|intros []]) | match goal with |- context [let (_, _) := ?x in _] => destruct x end].
Lemma rep_ne k h i e : mk_rep k h i <> NErr e.
Proof.
  destruct k as [| | |n|n|n k]; cbn [mk_rep]; try discriminate.
  - destruct n as [|[|n]]; try discriminate. unfold mk_exactly. ne.
  - destruct n; try discriminate. unfold mk_at_least. ne.
  - destruct n as [|[|n]]; [destruct k as [|[|k]]|destruct k as [|[|k]]|]; try discriminate; try (unfold mk_bounded0; ne; fail);
    destruct (Nat.eqb _ _); try (unfold mk_exactly; ne; fail); destruct (Nat.ltb _ _); try discriminate; unfold mk_bounded; ne.
Qed.
