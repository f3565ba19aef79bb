(** The translation of a pattern on a real memory (for C83). *)
From Coq Require Import Permutation.
From Verif Require Import Lib Hir NfaPath NfaModel NfaProofs MemModel MemProofs MemRep.

Section Alloc.
  Variable al : nat -> list nat -> nat.
  Hypothesis fresh : forall t l, ~ In (al t l) l.

  Definition builds (c : M nfa) (r : nres (heap * nfa)) (h : heap) : Prop := forall m O L s, sim h m O L s ->
    match r with
    | NOk (h', n) => exists m' s', c s = COk (img_nfa m' n) s' /\ pre m m' /\ sim h' m' (owned n ++ O) L s' /\ (forall p, In p (owned n) -> length h <= p) /\ length h <= length h'
    | NErr e => exists h' m' s', c s = CErr e s' /\ pre m m' /\ sim h' m' O L s'
    | NPanic => True
    end.

  Lemma at_last m a h O L s : sim h m O L s -> at_ (m ++ [a]) (length h) = a.
  Proof. intros S. unfold at_. rewrite app_nth2; rewrite (s_len _ _ _ _ _ S); auto. rewrite Nat.sub_diag. reflexivity. Qed.
  Lemma sim_new2 h m O L s : sim h m O L s -> let b := length h in let e := Datatypes.S b in
    exists m' s1 s2, new al s = COk (at_ m' b) s1 /\ new al s1 = COk (at_ m' e) s2 /\ pre m m' /\ sim (h ++ [nnode_default; nnode_default]) m' (e :: b :: O) L s2.
  Proof.
    intros S b e. destruct (sim_new al fresh _ _ _ _ _ S) as (a & s1 & E1 & S1). destruct (sim_new al fresh _ _ _ _ _ S1) as (a' & s2 & E2 & S2).
    exists ((m ++ [a]) ++ [a']), s1, s2. rewrite app_length in S2. simpl in S2. rewrite Nat.add_1_r in S2. rewrite <- app_assoc in S2. split; [|split; [|split; [exists [a; a']; rewrite <- app_assoc; auto|exact S2]]].
    - rewrite E1. f_equal. rewrite (pre_at (m ++ [a])); [symmetry; eapply at_last; eauto|eexists; reflexivity|]. rewrite (s_len _ _ _ _ _ S1), app_length. simpl. unfold b. lia.
    - rewrite E2. f_equal. symmetry. unfold e, b. replace (Datatypes.S (length h)) with (length (h ++ [nnode_default])) by (rewrite app_length; simpl; lia). eapply at_last; eauto.
  Qed.
  Lemma sim_poke_next h m O L s i r q : sim h m O L s -> In i L -> q < length h ->
    exists s', poke (at_ m i) (to_next r [at_ m q]) s = COk tt s' /\ sim (upd_nth i (to_next r [q]) h) m O L s'.
  Proof.
    intros S Hl Hq. eapply sim_poke; eauto.
    - intros nd _. apply img_to_next.
    - intros nd x Hn Hx. apply target_to_next in Hx as [->|Hx]; auto. eapply s_edge; eauto.
  Qed.

  Lemma builds_empty h : builds (c_nfa_of al HEmpty) (nfa_of HEmpty h) h.
  Proof.
    intros m O L s S. cbn [nfa_of]. set (p := length h). destruct (sim_new al fresh _ _ _ _ _ S) as (a & s1 & E1 & S1). fold p in S1. set (m' := m ++ [a]) in *.
    assert (Ea : a = at_ m' p) by (symmetry; eapply at_last; eauto). assert (Hp : ~ In p L) by (eapply notL; [exact S|unfold p; auto]).
    assert (Hlt : p < length (h ++ [nnode_default])) by (rewrite app_length; simpl; unfold p; lia).
    destruct (sim_lockit _ _ _ _ _ _ S1 (or_introl eq_refl) Hp) as (s2 & E2 & S2).
    destruct (sim_poke_eps _ _ _ _ _ p p S2 (or_introl eq_refl) Hlt) as (s3 & E3 & S3). rewrite add_eps_upd in S3. unfold p at 1 in S3. rewrite upd_mid in S3.
    destruct (sim_poke_next _ _ _ _ _ p (0, max_char + 1)%N p S3 (or_introl eq_refl)) as (s4 & E4 & S4); [rewrite app_length; simpl; unfold p; lia|]. unfold p at 1 in S4. rewrite upd_mid in S4.
    destruct (sim_unlock _ _ _ _ _ _ S4 Hp) as (s5 & E5 & S5). destruct (sim_retain _ _ _ _ _ p S5) as (s6 & E6 & S6); [left; auto|]. destruct (sim_retain _ _ _ _ _ p S6) as (s7 & E7 & S7); [left; auto|].
    exists m', s7. split; [|split; [eexists; reflexivity|split; [exact S7|split]]].
    - cbn [c_nfa_of]. rewrite (cbind_ok _ _ _ _ _ E1). rewrite Ea, (cbind_ok _ _ _ _ _ E2), (cbind_ok _ _ _ _ _ E3), (cbind_ok _ _ _ _ _ E4), (cbind_ok _ _ _ _ _ E5), (cbind_ok _ _ _ _ _ E6), (cbind_ok _ _ _ _ _ E7). reflexivity.
    - intros q Hq. cbn in Hq. unfold p in Hq. intuition lia.
    - rewrite app_length. lia.
  Qed.
  Lemma upd_mid' {A} n (l1 l2 : list A) x f : n = length l1 -> upd_nth n f (l1 ++ x :: l2) = l1 ++ f x :: l2.
  Proof. intros ->. apply upd_mid. Qed.

  Lemma builds_class rs h : builds (c_nfa_of al (HClassU rs)) (nfa_of (HClassU rs) h) h.
  Proof.
    intros m O L s S. cbn [nfa_of]. destruct (sim_new2 _ _ _ _ _ S) as (m' & s1 & s2 & E1 & E2 & P & S2). set (b := length h) in *. set (e := Datatypes.S b) in *.
    assert (Hb : ~ In b L) by (eapply notL; [exact S|unfold b; auto]).
    destruct (sim_lockit _ _ _ _ _ b S2) as (s3 & E3 & S3); [right; left; auto|auto|].
    assert (Hloop : forall rs nx s3, sim (h ++ [mk_nnode [] nx; nnode_default]) m' (e :: b :: O) (b :: L) s3 ->
      exists s4, citer (fun r : crange => poke (at_ m' b) (to_next (fst r, (snd r + 1)%N) [at_ m' e])) rs s3 = COk tt s4 /\
        sim (h ++ [mk_nnode [] (fold_left (fun m r => rset (fst r, (snd r + 1)%N) [e] m) rs nx); nnode_default]) m' (e :: b :: O) (b :: L) s4).
    { clear. induction rs as [|r rs IH]; intros nx s3 S3; cbn [citer fold_left]; [exists s3; split; auto|].
      destruct (sim_poke_next _ _ _ _ _ b (fst r, (snd r + 1)%N) e S3 (or_introl eq_refl)) as (s4 & E4 & S4); [rewrite app_length; simpl; unfold e, b; lia|].
      rewrite upd_mid' in S4 by reflexivity. destruct (IH _ _ S4) as (s5 & E5 & S5). exists s5. split; auto. rewrite (cbind_ok _ _ _ _ _ E4). exact E5. }
    destruct (Hloop rs [] s3 S3) as (s4 & E4 & S4). destruct (sim_unlock _ _ _ _ _ _ S4 Hb) as (s5 & E5 & S5).
    destruct (sim_retain _ _ _ _ _ b S5) as (s6 & E6 & S6); [right; left; auto|]. destruct (sim_retain _ _ _ _ _ e S6) as (s7 & E7 & S7); [right; left; auto|].
    exists m', s7. split; [|split; [exact P|split; [|split]]].
    - cbn [c_nfa_of]. rewrite (cbind_ok _ _ _ _ _ E1), (cbind_ok _ _ _ _ _ E2), (cbind_ok _ _ _ _ _ E3), (cbind_ok _ _ _ _ _ E4), (cbind_ok _ _ _ _ _ E5), (cbind_ok _ _ _ _ _ E6), (cbind_ok _ _ _ _ _ E7). reflexivity.
    - eapply sim_perm; [|exact S7]. perm.
    - intros q Hq. cbn in Hq. unfold e, b in Hq. intuition lia.
    - rewrite app_length. lia.
  Qed.
  Lemma builds_lit c h : builds (c_nfa_of al (HLitU c)) (nfa_of (HLitU c) h) h.
  Proof.
    intros m O L s S. cbn [nfa_of]. destruct (sim_new2 _ _ _ _ _ S) as (m' & s1 & s2 & E1 & E2 & P & S2). set (b := length h) in *. set (e := Datatypes.S b) in *.
    assert (Hb : ~ In b L) by (eapply notL; [exact S|unfold b; auto]).
    destruct (sim_lockit _ _ _ _ _ b S2) as (s3 & E3 & S3); [right; left; auto|auto|].
    destruct (sim_poke_next _ _ _ _ _ b (c, (c + 1)%N) e S3 (or_introl eq_refl)) as (s4 & E4 & S4); [rewrite app_length; simpl; unfold e, b; lia|].
    rewrite upd_mid' in S4 by reflexivity. destruct (sim_unlock _ _ _ _ _ _ S4 Hb) as (s5 & E5 & S5).
    assert (EW : write (at_ m' b) (to_next (c, (c + 1)%N) [at_ m' e]) s2 = COk tt s5) by (unfold write; rewrite (cbind_ok _ _ _ _ _ E3), (cbind_ok _ _ _ _ _ E4); exact E5).
    destruct (sim_retain _ _ _ _ _ b S5) as (s6 & E6 & S6); [right; left; auto|]. destruct (sim_retain _ _ _ _ _ e S6) as (s7 & E7 & S7); [right; left; auto|].
    exists m', s7. split; [|split; [exact P|split; [|split]]].
    - cbn [c_nfa_of]. rewrite (cbind_ok _ _ _ _ _ E1), (cbind_ok _ _ _ _ _ E2), (cbind_ok _ _ _ _ _ EW), (cbind_ok _ _ _ _ _ E6), (cbind_ok _ _ _ _ _ E7). reflexivity.
    - eapply sim_perm; [|exact S7]. perm.
    - intros q Hq. cbn in Hq. unfold e, b in Hq. intuition lia.
    - rewrite app_length. lia.
  Qed.

  (** the loops of [Concat] and [Alternation] *)
  Fixpoint ccat (l : list hir) : M nfa :=
    match l with
    | [] => fun _ => CPanic
    | [x] => c_nfa_of al x
    | x :: l' => cdo r <- ccat l'; bind_or (drop_nfa r) (c_nfa_of al x) (fun n => write (nfa_end n) (to_eps (nfa_begin r)) ;; release (nfa_begin r) ;; release (nfa_end n) ;; ret (mk_nfa (nfa_nodes r ++ nfa_nodes n) (nfa_begin n) (nfa_end r)))
    end.
  Fixpoint acat (l : list hir) (h : heap) : nres (heap * nfa) :=
    match l with
    | [] => NPanic
    | [x] => nfa_of x h
    | x :: l' => ndo (h1, r) <- acat l' h; ndo (h2, n) <- nfa_of x h1; NOk (add_eps h2 (nfa_end n) (nfa_begin r), mk_nfa (nfa_nodes r ++ nfa_nodes n) (nfa_begin n) (nfa_end r))
    end.
  Section Ends.
  Variables b e : nat.
  Fixpoint calt (l : list hir) (nodes : list nat) : M (list nat) :=
    match l with
    | [] => ret nodes
    | x :: l' => bind_or (unlock b ;; release_all (nodes ++ [b; e])) (c_nfa_of al x) (fun n => poke b (to_eps (nfa_begin n)) ;; write (nfa_end n) (to_eps e) ;; release (nfa_begin n) ;; release (nfa_end n) ;; calt l' (nodes ++ nfa_nodes n))
    end.
  Fixpoint aalt (l : list hir) (h : heap) (nodes : list nat) : nres (heap * list nat) :=
    match l with
    | [] => NOk (h, nodes)
    | x :: l' => ndo (h1, n) <- nfa_of x h; aalt l' (add_eps (add_eps h1 b (nfa_begin n)) (nfa_end n) e) (nodes ++ nfa_nodes n)
    end.
  End Ends.

  Lemma bind_or_err {A B} u (x : M A) (f : A -> M B) s e s' s'' : x s = CErr e s' -> u s' = COk tt s'' -> bind_or u x f s = CErr e s''.
  Proof. intros H1 H2. unfold bind_or. rewrite H1, H2. reflexivity. Qed.
  Lemma cbind_err {A B} (x : M A) (f : A -> M B) s e s' : x s = CErr e s' -> cbind x f s = CErr e s'.
  Proof. intros H. unfold cbind, bind_or. rewrite H. reflexivity. Qed.

  Lemma builds_cat l : Forall (fun x => forall h, builds (c_nfa_of al x) (nfa_of x h) h) l -> forall h, builds (ccat l) (acat l h) h.
  Proof.
    induction 1 as [|x l Hx Hl IH]; intros h m O L s S; [exact I|]. destruct l as [|y l]; [apply Hx; auto|].
    change (acat (x :: y :: l) h) with (ndo (h1, r) <- acat (y :: l) h; ndo (h2, n) <- nfa_of x h1; NOk (add_eps h2 (nfa_end n) (nfa_begin r), mk_nfa (nfa_nodes r ++ nfa_nodes n) (nfa_begin n) (nfa_end r))).
    change (ccat (x :: y :: l)) with (cdo r <- ccat (y :: l); bind_or (drop_nfa r) (c_nfa_of al x) (fun n => write (nfa_end n) (to_eps (nfa_begin r)) ;; release (nfa_begin r) ;; release (nfa_end n) ;; ret (mk_nfa (nfa_nodes r ++ nfa_nodes n) (nfa_begin n) (nfa_end r)))).
    revert Hl IH. generalize (y :: l). clear y l. intros l Hl IH.
    specialize (IH h m O L s S). destruct (acat l h) as [[h1 r]|er|]; cbn [nbind]; [|destruct IH as (h' & m' & s' & E & P & S'); exists h', m', s'; split; auto; apply cbind_err; auto|exact I].
    destruct IH as (m1 & s1 & E1 & P1 & S1 & G1 & L1). specialize (Hx h1 m1 _ L s1 S1). destruct (nfa_of x h1) as [[h2 n]|er|]; cbn [nbind]; [|destruct Hx as (h' & m' & s' & E & P & S')|exact I].
    - destruct Hx as (m2 & s2 & E2 & P2 & S2 & G2 & L2).
      assert (Er : img_nfa m1 r = img_nfa m2 r) by (eapply img_old; [exact P2|exact S1|intros; inn]).
      assert (He : ~ In (nfa_end n) L) by (eapply notL; [exact S|]; assert (length h1 <= nfa_end n) by (apply G2; inn); lia).
      assert (Hr : ~ In (nfa_begin r) L) by (eapply notL; [exact S|]; apply G1; inn).
      destruct (sim_write _ _ _ _ _ (nfa_end n) (nfa_begin r) S2) as (s3 & E3 & S3); [inn|auto|eapply own_lth; eauto; inn|].
      use_perm S3 (nfa_begin r :: nfa_end n :: (nfa_nodes r ++ nfa_nodes n ++ [nfa_begin n; nfa_end r]) ++ O).
      destruct (sim_release _ _ _ _ _ _ S3) as (s4 & E4 & S4); [tauto|]. destruct (sim_release _ _ _ _ _ _ S4) as (s5 & E5 & S5); [tauto|].
      exists m2, s5. split; [|split; [eapply pre_trans; eauto|split; [eapply sim_perm; [|exact S5]; perm|split]]].
      + rewrite (cbind_ok _ _ _ _ _ E1), (bind_or_ok _ _ _ _ _ _ E2). rewrite Er. cbn [img_nfa nfa_nodes nfa_begin nfa_end]. rewrite (cbind_ok _ _ _ _ _ E3), (cbind_ok _ _ _ _ _ E4), (cbind_ok _ _ _ _ _ E5). unfold ret, img_nfa. cbn [nfa_nodes nfa_begin nfa_end]. rewrite map_app. reflexivity.
      + intros p Hp. assert (Hq : In p (owned r) \/ In p (owned n)) by inn. destruct Hq as [Hq|Hq]; [auto|]. apply G2 in Hq. lia.
      + rewrite add_eps_length. lia.
    - assert (Hr : forall p, In p (owned r) -> ~ In p L) by (intros p Hp; eapply notL; [exact S|]; apply G1; auto).
      destruct (sim_release_all _ _ _ _ _ _ S' Hr) as (s2 & E2 & S2). exists h', m', s2. split; [|split; [eapply pre_trans; eauto|auto]].
      rewrite (cbind_ok _ _ _ _ _ E1). eapply bind_or_err; [exact E|]. unfold drop_nfa. rewrite owned_img. rewrite <- E2. f_equal. symmetry. apply pre_map; auto. intros p Hp. eapply own_lt; [exact S1|inn].
  Qed.

  Lemma builds_alt b e O L : ~ In b L -> b <> e -> forall l, Forall (fun x => forall h, builds (c_nfa_of al x) (nfa_of x h) h) l -> forall h m nodes s,
    sim h m (nodes ++ b :: e :: O) (b :: L) s -> (forall p, In p (b :: e :: nodes) -> ~ In p L) ->
    match aalt b e l h nodes with
    | NOk (h', nodes') => exists m' s', calt (at_ m b) (at_ m e) l (map (at_ m) nodes) s = COk (map (at_ m') nodes') s' /\ pre m m' /\ sim h' m' (nodes' ++ b :: e :: O) (b :: L) s' /\ (forall p, In p nodes' -> In p nodes \/ length h <= p) /\ length h <= length h'
    | NErr er => exists h' m' s', calt (at_ m b) (at_ m e) l (map (at_ m) nodes) s = CErr er s' /\ pre m m' /\ sim h' m' O L s'
    | NPanic => True
    end.
  Proof.
    intros Hb Hbe. induction 1 as [|x l Hx Hl IH]; intros h m nodes s S Hn.
    - cbn [aalt]. exists m, s. split; [reflexivity|]. split; [apply pre_refl|]. auto.
    - cbn [aalt calt]. specialize (Hx h m _ _ s S). destruct (nfa_of x h) as [[h1 n]|er|]; cbn [nbind]; [|destruct Hx as (h' & m' & s' & E & P & S')|exact I].
      + destruct Hx as (m1 & s1 & E1 & P1 & S1 & G1 & L1). rewrite (bind_or_ok _ _ _ _ _ _ E1). cbn [img_nfa nfa_nodes nfa_begin nfa_end].
        assert (Eb : at_ m b = at_ m1 b) by (symmetry; apply pre_at; auto; eapply own_lt; [exact S|inn]).
        assert (Ee : at_ m e = at_ m1 e) by (symmetry; apply pre_at; auto; eapply own_lt; [exact S|inn]).
        assert (En : map (at_ m) nodes = map (at_ m1) nodes) by (symmetry; apply pre_map; auto; intros p Hp; eapply own_lt; [exact S|inn]).
        rewrite Eb, Ee, En.
        assert (HL : forall p, In p (owned n) -> ~ In p (b :: L)) by (intros p Hp; eapply notL; [exact S|]; auto).
        destruct (sim_poke_eps _ _ _ _ _ b (nfa_begin n) S1) as (s2 & E2 & S2); [left; auto|eapply own_lth; [exact S1|inn]|].
        destruct (sim_write _ _ _ _ _ (nfa_end n) e S2) as (s3 & E3 & S3); [inn|apply HL; inn|eapply own_lth; [exact S2|inn]|].
        use_perm S3 (nfa_begin n :: nfa_end n :: (nodes ++ nfa_nodes n) ++ b :: e :: O).
        destruct (sim_release _ _ _ _ _ _ S3) as (s4 & E4 & S4); [intros X; exfalso; revert X; apply HL; inn|]. destruct (sim_release _ _ _ _ _ _ S4) as (s5 & E5 & S5); [intros X; exfalso; revert X; apply HL; inn|].
        specialize (IH _ m1 (nodes ++ nfa_nodes n) s5 S5). rewrite (cbind_ok _ _ _ _ _ E2), (cbind_ok _ _ _ _ _ E3), (cbind_ok _ _ _ _ _ E4), (cbind_ok _ _ _ _ _ E5).
        rewrite map_app in IH. assert (Hn' : forall p, In p (b :: e :: nodes ++ nfa_nodes n) -> ~ In p L).
        { intros p Hp. assert (Hq : In p (b :: e :: nodes) \/ In p (owned n)) by inn. destruct Hq as [Hq|Hq]; [auto|]. intros X. eapply HL; eauto. right. auto. }
        specialize (IH Hn'). destruct (aalt _ _ _ _ _) as [[h' nodes']|er|]; [|destruct IH as (h' & m' & s' & E & P & S'); exists h', m', s'; split; auto; split; auto; eapply pre_trans; eauto|exact I].
        destruct IH as (m' & s' & E & P & S' & G & Le). exists m', s'. split; auto. split; [eapply pre_trans; eauto|]. split; auto. rewrite !add_eps_length in *. split; [|lia].
        intros p Hp. destruct (G p Hp) as [Hq|Hq]; [|right; lia]. apply in_app_or in Hq as [Hq|Hq]; auto. right. apply G1. inn.
      + assert (Eb : at_ m b = at_ m' b) by (symmetry; apply pre_at; auto; eapply own_lt; [exact S|inn]).
        assert (Ee : at_ m e = at_ m' e) by (symmetry; apply pre_at; auto; eapply own_lt; [exact S|inn]).
        assert (En : map (at_ m) nodes = map (at_ m') nodes) by (symmetry; apply pre_map; auto; intros p Hp; eapply own_lt; [exact S|inn]).
        rewrite Eb, Ee, En. destruct (sim_unlock _ _ _ _ _ _ S' Hb) as (s2 & E2 & S2). use_perm S2 ((nodes ++ [b; e]) ++ O).
        destruct (sim_release_all _ _ _ _ _ _ S2) as (s3 & E3 & S3); [intros p Hp; apply Hn; inn|]. exists h', m', s3. split; [|auto].
        eapply bind_or_err; [exact E|]. rewrite (cbind_ok _ _ _ _ _ E2). rewrite map_app in E3. exact E3.
  Qed.

  Theorem builds_all k : forall h, builds (c_nfa_of al k) (nfa_of k h) h.
  Proof.
    induction k as [|c|b|rs|rs| | |kd g k IH|k IH|hs IH|hs IH] using hir_ind'; intros h; try apply builds_empty; try apply builds_lit; try apply builds_class;
      try (intros m O L s S; exists h, m, s; split; [reflexivity|split; [apply pre_refl|auto]]; fail).
    - intros m O L s S. cbn [nfa_of c_nfa_of]. specialize (IH h m O L s S). destruct (nfa_of k h) as [[h1 i]|er|]; cbn [nbind]; [|destruct IH as (h' & m' & s' & E & P & S'); exists h', m', s'; split; auto; apply cbind_err; auto|exact I].
      destruct IH as (m1 & s1 & E1 & P1 & S1 & G1 & L1). destruct (mk_rep kd h1 i) as [[h2 n]|er|] eqn:Er; [|exfalso; eapply rep_ne; eauto|exact I].
      destruct (does_rep al fresh _ _ _ _ _ Er m1 O L s1 S1) as (m2 & s2 & E2 & P2 & S2 & G2 & L2); [intros p Hp; eapply notL; [exact S|auto]|].
      exists m2, s2. split; [rewrite (cbind_ok _ _ _ _ _ E1); auto|]. split; [eapply pre_trans; eauto|]. split; auto. split; [|lia]. intros p Hp. destruct (G2 p Hp) as [Hq|Hq]; [auto|lia].
    - exact (IH h).
    - exact (builds_cat hs IH h).
    - intros m O L s S. change (nfa_of (HAlt hs) h) with (ndo (h', nodes) <- aalt (length h) (Datatypes.S (length h)) hs (h ++ [nnode_default; nnode_default]) [length h; Datatypes.S (length h)]; NOk (h', mk_nfa nodes (length h) (Datatypes.S (length h)))).
      change (c_nfa_of al (HAlt hs)) with (cdo b <- new al; cdo e <- new al; retain b ;; retain e ;; lock b ;; cdo nodes <- calt b e hs [b; e]; unlock b ;; ret (mk_nfa nodes b e)).
      destruct (sim_new2 _ _ _ _ _ S) as (m1 & s1 & s2 & E1 & E2 & P1 & S2). set (b := length h) in *. set (e := Datatypes.S b) in *.
      rewrite (cbind_ok _ _ _ _ _ E1), (cbind_ok _ _ _ _ _ E2).
      assert (Hb : ~ In b L) by (eapply notL; [exact S|unfold b; auto]). assert (He : ~ In e L) by (eapply notL; [exact S|unfold e, b; auto]).
      destruct (sim_retain _ _ _ _ _ b S2) as (s3 & E3 & S3); [right; left; auto|]. destruct (sim_retain _ _ _ _ _ e S3) as (s4 & E4 & S4); [right; left; auto|].
      destruct (sim_lockit _ _ _ _ _ b S4) as (s5 & E5 & S5); [right; left; auto|auto|]. use_perm S5 ([b; e] ++ b :: e :: O).
      rewrite (cbind_ok _ _ _ _ _ E3), (cbind_ok _ _ _ _ _ E4), (cbind_ok _ _ _ _ _ E5).
      assert (Hne : b <> e) by (unfold e; lia).
      pose proof (builds_alt b e O L Hb Hne hs IH _ m1 [b; e] s5 S5) as HA. cbn [map] in HA.
      assert (Hn : forall p, In p [b; e; b; e] -> ~ In p L) by (intros p Hp; cbn in Hp; intuition (subst; auto)). specialize (HA Hn).
      destruct (aalt _ _ _ _ _) as [[h' nodes]|er|]; cbn [nbind]; [|destruct HA as (h' & m' & s' & E & P & S'); exists h', m', s'; split; [apply cbind_err; auto|split; auto; eapply pre_trans; eauto]|exact I].
      destruct HA as (m' & s' & E & P & S' & G & Le). rewrite (cbind_ok _ _ _ _ _ E).
      assert (Eb : at_ m1 b = at_ m' b) by (symmetry; apply pre_at; auto; eapply own_lt; [exact S2|inn]).
      assert (Ee : at_ m1 e = at_ m' e) by (symmetry; apply pre_at; auto; eapply own_lt; [exact S2|inn]).
      destruct (sim_unlock _ _ _ _ _ _ S' Hb) as (s6 & E6 & S6). rewrite Eb, Ee, (cbind_ok _ _ _ _ _ E6).
      exists m', s6. split; [reflexivity|]. split; [eapply pre_trans; eauto|]. split; [eapply sim_perm; [|exact S6]; perm|].
      rewrite app_length in Le, G. cbn [length] in Le, G. split; [|lia]. intros p Hp. assert (Hq : In p nodes \/ p = b \/ p = e) by (unfold owned in Hp; cbn [nfa_nodes nfa_begin nfa_end] in Hp; apply in_app_or in Hp; cbn in Hp; intuition).
      unfold e, b in *. destruct Hq as [Hq|[->| ->]]; [|lia..]. apply G in Hq. cbn in Hq. intuition lia.
  Qed.
End Alloc.
