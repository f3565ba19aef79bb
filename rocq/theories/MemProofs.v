(** The code on a real memory does what the code of [NfaModel.v] does (for C83). *)
From Coq Require Import Permutation.
From Verif Require Import Lib Hir NfaPath NfaModel NfaProofs MemModel.

Definition at_ (m : list nat) (i : nat) : nat := nth i m 0.
Definition img_set (m : list nat) (l : list nat) : list nat := to_set (map (at_ m) l).
Definition img (m : list nat) (n : nnode) : nnode := mk_nnode (img_set m (n_eps n)) (map (fun x => (fst x, img_set m (snd x))) (n_next n)).
Definition img_nfa (m : list nat) (n : nfa) : nfa := mk_nfa (map (at_ m) (nfa_nodes n)) (at_ m (nfa_begin n)) (at_ m (nfa_end n)).
Definition target (n : nnode) (q : nat) : Prop := In q (n_eps n) \/ exists r s, In (r, s) (n_next n) /\ In q s.
Definition cnt (i : nat) (O : list nat) : nat := count_occ Nat.eq_dec O i.
Definition held (i : nat) (L : list nat) : bool := existsb (Nat.eqb i) L.

Lemma held_In i L : held i L = true <-> In i L.
Proof. unfold held. rewrite existsb_exists. split; [intros (x & H & E); apply Nat.eqb_eq in E; subst; auto|intros H; exists i; split; auto; apply Nat.eqb_refl]. Qed.
Lemma held_nIn i L : held i L = false <-> ~ In i L.
Proof. rewrite <- held_In. destruct (held i L); split; congruence. Qed.

(** [h]: the cells of [NfaModel.v]; [m]: their addresses; [O]: the strong references; [L]: the locked cells *)
Record sim (h : heap) (m : list nat) (O L : list nat) (s : store) : Prop := {
  s_len : length m = length h;
  s_bound : forall i, In i O -> i < length h;
  s_lock : forall i, In i L -> In i O;
  s_inj : forall i j, In i O -> In j O -> at_ m i = at_ m j -> i = j;
  s_cell : forall i nd, In i O -> nth_error h i = Some nd -> look s (at_ m i) = Some (mk_cell (cnt i O) (held i L) (img m nd));
  s_dom : forall a, look s a <> None -> exists i, In i O /\ at_ m i = a;
  s_edge : forall i nd q, nth_error h i = Some nd -> target nd q -> q < length h
}.

Definition pre (m m' : list nat) : Prop := exists t, m' = m ++ t.
Lemma pre_refl m : pre m m. Proof. exists []. symmetry. apply app_nil_r. Qed.
Lemma pre_trans a b c : pre a b -> pre b c -> pre a c.
Proof. intros [x ->] [y ->]. exists (x ++ y). symmetry. apply app_assoc. Qed.
Lemma pre_at m m' i : pre m m' -> i < length m -> at_ m' i = at_ m i.
Proof. intros [t ->] H. unfold at_. apply app_nth1; auto. Qed.
Lemma pre_len m m' : pre m m' -> length m <= length m'.
Proof. intros [t ->]. rewrite app_length. lia. Qed.
Lemma pre_map m m' l : pre m m' -> (forall i, In i l -> i < length m) -> map (at_ m') l = map (at_ m) l.
Proof. intros H Hl. apply map_ext_in. intros i Hi. apply pre_at; auto. Qed.
Lemma pre_nfa m m' n : pre m m' -> (forall i, In i (owned n) -> i < length m) -> img_nfa m' n = img_nfa m n.
Proof.
  intros H Hl. unfold img_nfa. unfold owned in Hl. f_equal.
  - apply pre_map; auto. intros i Hi. apply Hl, in_or_app. auto.
  - apply pre_at; auto. apply Hl, in_or_app. right. simpl. auto.
  - apply pre_at; auto. apply Hl, in_or_app. right. simpl. auto.
Qed.
Lemma pre_img m m' nd : pre m m' -> (forall q, target nd q -> q < length m) -> img m' nd = img m nd.
Proof.
  intros H Hl. unfold img, img_set. f_equal.
  - rewrite (pre_map m m'); auto. intros i Hi. apply Hl. left. auto.
  - apply map_ext_in. intros [r x] Hx. simpl. rewrite (pre_map m m'); auto. intros i Hi. apply Hl. right. eauto.
Qed.

Lemma sim_perm h m O O' L s : Permutation O O' -> sim h m O L s -> sim h m O' L s.
Proof.
  intros P [A B C D E F G]. assert (Hin : forall i, In i O' -> In i O) by (intros i; apply Permutation_in, Permutation_sym; auto). assert (Hin' : forall i, In i O -> In i O') by (intros i; apply Permutation_in; auto).
  split; auto.
  - intros i nd Hi Hn. rewrite (E i nd); auto. f_equal. f_equal. unfold cnt. apply Permutation_count_occ; auto.
  - intros a Ha. destruct (F a Ha) as (i & Hi & Ha'). eauto.
Qed.

Lemma look_put s a c b : look (put s a c) b = if Nat.eqb b a then Some c else look s b.
Proof. unfold look, put. simpl. apply aget_aset. apply Nat.eqb_eq. Qed.
Lemma look_free s a b : look (free s a) b = if Nat.eqb b a then None else look s b.
Proof.
  unfold look, free. simpl. induction (st_cells s) as [|[k v] l IH]; simpl; [destruct (Nat.eqb b a); auto|].
  destruct (Nat.eqb a k) eqn:E1; simpl.
  - apply Nat.eqb_eq in E1. subst k. destruct (Nat.eqb b a); auto.
  - destruct (Nat.eqb b k) eqn:E2; auto. apply Nat.eqb_eq in E2. subst k. rewrite Nat.eqb_sym, E1. reflexivity.
Qed.
Lemma cell_of h m O L s i : sim h m O L s -> In i O -> exists nd, nth_error h i = Some nd /\ look s (at_ m i) = Some (mk_cell (cnt i O) (held i L) (img m nd)).
Proof.
  intros S Hi. destruct (nth_error h i) as [nd|] eqn:E.
  - exists nd. split; auto. eapply s_cell; eauto.
  - apply nth_error_None in E. pose proof (s_bound _ _ _ _ _ S i Hi). lia.
Qed.
Lemma cnt_pos i O : In i O -> cnt i O > 0. Proof. apply count_occ_In. Qed.
Lemma cnt_same i O : cnt i (i :: O) = S (cnt i O). Proof. unfold cnt. apply count_occ_cons_eq. auto. Qed.
Lemma cnt_other i j O : i <> j -> cnt i (j :: O) = cnt i O. Proof. intros H. unfold cnt. apply count_occ_cons_neq. auto. Qed.

(** replacing the cell of [i] *)
Lemma sim_put h h' m O O' L L' s i c :
  sim h m O L s -> In i O -> length h' = length h ->
  (forall j, In j O' <-> In j O) -> (forall j, In j L' -> In j O') ->
  (forall nd, nth_error h' i = Some nd -> c = mk_cell (cnt i O') (held i L') (img m nd)) ->
  (forall j, j <> i -> nth_error h' j = nth_error h j /\ cnt j O' = cnt j O /\ held j L' = held j L) ->
  (forall nd q, nth_error h' i = Some nd -> target nd q -> q < length h) ->
  sim h' m O' L' (put s (at_ m i) c).
Proof.
  intros [A B C D E F G] Hi Hl HO HL Hc Hj He. split; auto; try lia.
  - intros j Hj'. rewrite Hl. apply B, HO. auto.
  - intros j k H1 H2. apply D; apply HO; auto.
  - intros j nd H1 H2. rewrite look_put. destruct (Nat.eqb (at_ m j) (at_ m i)) eqn:Ea.
    + apply Nat.eqb_eq in Ea. apply D in Ea; [|apply HO; auto|auto]. subst j. f_equal. auto.
    + destruct (Nat.eq_dec j i) as [->|Hne]; [rewrite Nat.eqb_refl in Ea; discriminate|]. destruct (Hj j Hne) as (E1 & E2 & E3). rewrite E1 in H2. rewrite E2, E3. apply E; auto. apply HO. auto.
  - intros a Ha. rewrite look_put in Ha. destruct (Nat.eqb a (at_ m i)) eqn:Ea; [apply Nat.eqb_eq in Ea; exists i; split; auto; apply HO; auto|]. destruct (F a Ha) as (j & Hj' & Ha'). exists j. split; auto. apply HO. auto.
  - intros j nd q H1 H2. rewrite Hl. destruct (Nat.eq_dec j i) as [->|Hne]; [eapply He; eauto|]. destruct (Hj j Hne) as (E1 & _). rewrite E1 in H1. eapply G; eauto.
Qed.

Lemma sim_retain h m O L s i : sim h m O L s -> In i O -> exists s', retain (at_ m i) s = COk tt s' /\ sim h m (i :: O) L s'.
Proof.
  intros S Hi. destruct (cell_of _ _ _ _ _ _ S Hi) as (nd & Hn & Hc). unfold retain, with_cell. rewrite Hc. simpl. eexists. split; [reflexivity|].
  eapply sim_put; eauto.
  - intros j. simpl. split; auto. intros [<-|]; auto.
  - intros j Hj. right. eapply s_lock; eauto.
  - intros nd' Hn'. rewrite cnt_same. congruence.
  - intros j Hj. split; auto. split; auto. apply cnt_other. auto.
  - intros nd' q Hn' Hq. eapply s_edge; eauto.
Qed.
Lemma sim_release h m O L s i : sim h m (i :: O) L s -> (In i L -> In i O) -> exists s', release (at_ m i) s = COk tt s' /\ sim h m O L s'.
Proof.
  intros S Hl. destruct (cell_of _ _ _ _ _ i S (or_introl eq_refl)) as (nd & Hn & Hc). unfold release, with_cell. rewrite Hc. cbn [c_count]. rewrite cnt_same.
  destruct (cnt i O) as [|k] eqn:Ek.
  - eexists. split; [reflexivity|]. assert (Hi : ~ In i O) by (apply count_occ_not_In in Ek; auto). destruct S as [A B C D E F G]. split; auto.
    + intros j Hj. apply B. right. auto.
    + intros j Hj. destruct (C j Hj) as [<-|]; auto. 
    + intros j k H1 H2. apply D; right; auto.
    + intros j nd' Hj Hn'. rewrite look_free. destruct (Nat.eqb (at_ m j) (at_ m i)) eqn:Ea.
      * apply Nat.eqb_eq in Ea. apply D in Ea; [subst; contradiction|right; auto|left; auto].
      * rewrite (E j nd'); auto; [|right; auto]. rewrite cnt_other by (intros ->; contradiction). auto.
    + intros a Ha. rewrite look_free in Ha. destruct (Nat.eqb a (at_ m i)) eqn:Ea; [congruence|]. destruct (F a Ha) as (j & [<-|Hj] & Hb); [subst a; rewrite Nat.eqb_refl in Ea; discriminate|eauto].
  - eexists. split; [reflexivity|]. assert (Hi : In i O) by (apply count_occ_In with (eq_dec := Nat.eq_dec); unfold cnt in Ek; lia).
    eapply sim_put; eauto.
    + left. auto.
    + intros j. simpl. split; auto. intros [<-|]; auto.
    + intros j Hj. destruct (s_lock _ _ _ _ _ S j Hj) as [<-|]; auto.
    + intros nd' Hn'. rewrite Ek. cbn [c_locked c_node]. congruence.
    + intros j Hj. split; auto. split; auto. rewrite cnt_other; auto.
    + intros nd' q Hn' Hq. eapply s_edge; eauto.
Qed.
Lemma sim_lockit h m O L s i : sim h m O L s -> In i O -> ~ In i L -> exists s', lock (at_ m i) s = COk tt s' /\ sim h m O (i :: L) s'.
Proof.
  intros S Hi Hl. destruct (cell_of _ _ _ _ _ _ S Hi) as (nd & Hn & Hc). apply held_nIn in Hl. unfold lock, with_cell. rewrite Hc. cbn [c_locked]. rewrite Hl. eexists. split; [reflexivity|].
  eapply sim_put; eauto.
  - tauto.
  - intros j [<-|Hj]; auto. eapply s_lock; eauto.
  - intros nd' Hn'. cbn [c_count c_node]. replace (held i (i :: L)) with true by (symmetry; apply held_In; left; auto). congruence.
  - intros j Hj. split; auto. split; auto. unfold held. simpl. apply Nat.eqb_neq in Hj. rewrite Hj. auto.
  - intros nd' q Hn' Hq. eapply s_edge; eauto.
Qed.
Lemma sim_unlock h m O L s i : sim h m O (i :: L) s -> ~ In i L -> exists s', unlock (at_ m i) s = COk tt s' /\ sim h m O L s'.
Proof.
  intros S Hl. assert (Hi : In i O) by (eapply s_lock; eauto; left; auto). destruct (cell_of _ _ _ _ _ _ S Hi) as (nd & Hn & Hc). apply held_nIn in Hl. unfold unlock, with_cell. rewrite Hc. eexists. split; [reflexivity|].
  eapply sim_put; eauto.
  - tauto.
  - intros j Hj. eapply s_lock; eauto. right. auto.
  - intros nd' Hn'. cbn [c_count c_node]. rewrite Hl. congruence.
  - intros j Hj. split; auto. split; auto. unfold held. simpl. apply Nat.eqb_neq in Hj. rewrite Hj. auto.
  - intros nd' q Hn' Hq. eapply s_edge; eauto.
Qed.
Lemma sim_poke h m O L s i f g : sim h m O L s -> In i L -> (forall nd, nth_error h i = Some nd -> f (img m nd) = img m (g nd)) -> (forall nd q, nth_error h i = Some nd -> target (g nd) q -> q < length h) ->
  exists s', poke (at_ m i) f s = COk tt s' /\ sim (upd_nth i g h) m O L s'.
Proof.
  intros S Hl Hf Hg. assert (Hi : In i O) by (eapply s_lock; eauto). destruct (cell_of _ _ _ _ _ _ S Hi) as (nd & Hn & Hc). pose proof (proj2 (held_In i L) Hl) as Hh.
  unfold poke, with_cell. rewrite Hc. cbn [c_locked]. rewrite Hh. eexists. split; [reflexivity|]. cbn [c_count c_node]. rewrite <- Hh at 1.
  eapply sim_put; eauto.
  - apply upd_nth_length.
  - tauto.
  - eapply s_lock; eauto.
  - intros nd' Hn'. rewrite nth_error_upd_nth, Nat.eqb_refl, Hn in Hn'. simpl in Hn'. injection Hn' as <-. rewrite Hf; auto.
  - intros j Hj. split; auto. rewrite nth_error_upd_nth. replace (Nat.eqb i j) with false; auto. symmetry. apply Nat.eqb_neq. auto.
  - intros nd' q Hn' Hq. rewrite nth_error_upd_nth, Nat.eqb_refl, Hn in Hn'. simpl in Hn'. injection Hn' as <-. eapply Hg; eauto.
Qed.
Lemma sim_peek h m O L s i nd : sim h m O L s -> In i O -> ~ In i L -> nth_error h i = Some nd -> peek (at_ m i) s = COk (img m nd) s.
Proof. intros S Hi Hl Hn. unfold peek, with_cell. rewrite (s_cell _ _ _ _ _ S i nd Hi Hn). apply held_nIn in Hl. cbn [c_locked]. rewrite Hl. reflexivity. Qed.

Lemma set_ins m q l : img_set m (ins q l) = ins (at_ m q) (img_set m l).
Proof.
  unfold img_set. apply sorted_ext; [apply sorted_to_set|apply sorted_ins, sorted_to_set|]. intros x. rewrite In_to_set, In_ins, In_to_set, !in_map_iff. split.
  - intros (y & <- & H). apply In_ins in H as [->|H]; eauto.
  - intros [->|(y & <- & H)]; [exists q|exists y]; (split; auto; apply In_ins; auto).
Qed.
Lemma img_to_eps m q nd : to_eps (at_ m q) (img m nd) = img m (to_eps q nd).
Proof. unfold to_eps, img. simpl. f_equal. symmetry. apply set_ins. Qed.
Lemma rset_map {V W} (g : V -> W) r v l : map (fun x => (fst x, g (snd x))) (rset r v l) = rset r (g v) (map (fun x => (fst x, g (snd x))) l).
Proof. induction l as [|[r' v'] l IH]; simpl; auto. destruct (N.compare (fst r) (fst r')); simpl; auto. f_equal. exact IH. Qed.
Lemma img_to_next m r q nd : to_next r [at_ m q] (img m nd) = img m (to_next r [q] nd).
Proof. unfold to_next, img. cbn [n_eps n_next]. f_equal. symmetry. exact (rset_map (img_set m) r [q] (n_next nd)). Qed.
Lemma target_to_eps q nd x : target (to_eps q nd) x -> x = q \/ target nd x.
Proof. unfold target, to_eps. simpl. intros [H|H]; [apply In_ins in H as [->|]; auto|auto]. Qed.
Lemma rset_In_inv {V} (r : crange) (v : V) l r' x : In (r', x) (rset r v l) -> x = v \/ In (r', x) l.
Proof. induction l as [|[r2 v2] l IH]; simpl; [intros [H|[]]; inversion H; auto|]. destruct (N.compare (fst r) (fst r2)); simpl; intros [H|H]; try (inversion H; subst); auto. destruct (IH H); auto. Qed.
Lemma target_to_next r q nd x : target (to_next r [q] nd) x -> x = q \/ target nd x.
Proof. unfold target, to_next. cbn [n_eps n_next]. intros [H|(r' & l & H & Hx)]; [auto|]. apply rset_In_inv in H as [->|H]; [destruct Hx as [<-|[]]; auto|]. right. right. eauto. Qed.

(** *** Temporaries *)
Lemma cbind_ok {A B} (x : M A) (f : A -> M B) s a s' : x s = COk a s' -> cbind x f s = f a s'.
Proof. intros H. unfold cbind, bind_or. rewrite H. reflexivity. Qed.
Lemma bind_or_ok {A B} u (x : M A) (f : A -> M B) s a s' : x s = COk a s' -> bind_or u x f s = f a s'.
Proof. intros H. unfold bind_or. rewrite H. reflexivity. Qed.
Lemma add_eps_upd h p q : add_eps h p q = upd_nth p (to_eps q) h. Proof. reflexivity. Qed.

Lemma sim_poke_eps h m O L s i q : sim h m O L s -> In i L -> q < length h ->
  exists s', poke (at_ m i) (to_eps (at_ m q)) s = COk tt s' /\ sim (add_eps h i q) m O L s'.
Proof.
  intros S Hl Hq. rewrite add_eps_upd. eapply sim_poke; eauto.
  - intros nd _. apply img_to_eps.
  - intros nd x Hn Hx. apply target_to_eps in Hx as [->|Hx]; auto. eapply s_edge; eauto.
Qed.
Lemma sim_write h m O L s i q : sim h m O L s -> In i O -> ~ In i L -> q < length h ->
  exists s', write (at_ m i) (to_eps (at_ m q)) s = COk tt s' /\ sim (add_eps h i q) m O L s'.
Proof.
  intros S Hi Hl Hq. unfold write. destruct (sim_lockit _ _ _ _ _ _ S Hi Hl) as (s1 & E1 & S1). rewrite (cbind_ok _ _ _ _ _ E1).
  destruct (sim_poke_eps _ _ _ _ _ i q S1 (or_introl eq_refl) Hq) as (s2 & E2 & S2). rewrite (cbind_ok _ _ _ _ _ E2). apply (sim_unlock _ _ _ _ _ _ S2 Hl).
Qed.
Lemma sim_write2 h m O L s i q q' : sim h m O L s -> In i O -> ~ In i L -> q < length h -> q' < length h ->
  exists s', write2 (at_ m i) (at_ m q) (at_ m q') s = COk tt s' /\ sim (add_eps (add_eps h i q) i q') m O L s'.
Proof.
  intros S Hi Hl Hq Hq'. unfold write2. destruct (sim_lockit _ _ _ _ _ _ S Hi Hl) as (s1 & E1 & S1). rewrite (cbind_ok _ _ _ _ _ E1).
  destruct (sim_poke_eps _ _ _ _ _ i q S1 (or_introl eq_refl) Hq) as (s2 & E2 & S2). rewrite (cbind_ok _ _ _ _ _ E2).
  destruct (sim_poke_eps _ _ _ _ _ i q' S2 (or_introl eq_refl)) as (s3 & E3 & S3); [rewrite add_eps_length; auto|]. rewrite (cbind_ok _ _ _ _ _ E3). apply (sim_unlock _ _ _ _ _ _ S3 Hl).
Qed.
Lemma sim_release_all h m L : forall l O s, sim h m (l ++ O) L s -> (forall i, In i l -> ~ In i L) -> exists s', release_all (map (at_ m) l) s = COk tt s' /\ sim h m O L s'.
Proof.
  induction l as [|i l IH]; intros O s S Hl; [exists s; split; auto|]. simpl in S. destruct (sim_release _ _ _ _ _ _ S) as (s1 & E1 & S1).
  { intros H. exfalso. eapply Hl; eauto. left. auto. }
  destruct (IH O s1 S1) as (s2 & E2 & S2); [intros j Hj; apply Hl; right; auto|]. exists s2. split; auto. unfold release_all in *. simpl. rewrite (cbind_ok _ _ _ _ _ E1). exact E2.
Qed.
Lemma owned_img m n : owned (img_nfa m n) = map (at_ m) (owned n). Proof. unfold owned, img_nfa. simpl. rewrite map_app. reflexivity. Qed.

Section Alloc.
  Variable al : nat -> list nat -> nat.
  Hypothesis fresh : forall t l, ~ In (al t l) l.
  Lemma look_dom s a : In a (map fst (st_cells s)) <-> look s a <> None.
  Proof. unfold look. rewrite (aget_None Nat.eqb Nat.eqb_eq). destruct (in_dec Nat.eq_dec a (map fst (st_cells s))); tauto. Qed.
  Lemma sim_new h m O L s : sim h m O L s -> exists a s', new al s = COk a s' /\ sim (h ++ [nnode_default]) (m ++ [a]) (length h :: O) L s'.
  Proof.
    intros S. pose proof S as [A B C D E F G]. set (a := al (st_clock s) (map fst (st_cells s))). assert (Hf : look s a = None).
    { destruct (look s a) eqn:E0; auto. exfalso. apply (fresh (st_clock s) (map fst (st_cells s))). apply look_dom. fold a. congruence. }
    exists a. eexists. split; [reflexivity|]. fold a.
    assert (Hold : forall i, In i O -> at_ (m ++ [a]) i = at_ m i). { intros i Hi. apply pre_at; [eexists; eauto|rewrite A; auto]. }
    assert (Hnew : at_ (m ++ [a]) (length h) = a). { unfold at_. rewrite app_nth2, A, Nat.sub_diag by lia. reflexivity. }
    assert (Hne : forall i, In i O -> at_ m i <> a). { intros i Hi E0. destruct (cell_of _ _ _ _ _ _ S Hi) as (nd & _ & Hc). rewrite E0 in Hc. congruence. }
    assert (Hnin : ~ In (length h) O) by (intros Hi; specialize (B _ Hi); lia).
    split.
    - rewrite !app_length. simpl. lia.
    - intros i [<-|Hi]; rewrite app_length; simpl; [lia|]. specialize (B i Hi). lia.
    - intros i Hi. right. auto.
    - intros i j [<-|Hi] [<-|Hj]; auto; rewrite ?Hnew; intros E0.
      + rewrite Hold in E0 by auto. exfalso. eapply Hne; eauto.
      + rewrite Hold in E0 by auto. exfalso. eapply Hne; eauto.
      + rewrite !Hold in E0 by auto. auto.
    - intros i nd [<-|Hi] Hn.
      + rewrite Hnew. unfold look. cbn [st_cells aget]. rewrite Nat.eqb_refl. rewrite nth_error_app2, Nat.sub_diag in Hn by lia. simpl in Hn. injection Hn as <-. rewrite cnt_same.
        replace (cnt (length h) O) with 0 by (symmetry; apply count_occ_not_In; auto). replace (held (length h) L) with false; [reflexivity|]. symmetry. apply held_nIn. intros Hl. apply Hnin. auto.
      + rewrite Hold by auto. unfold look. cbn [st_cells aget]. pose proof (Hne i Hi) as Hx. apply Nat.eqb_neq in Hx. rewrite Hx. fold (look s (at_ m i)).
        rewrite nth_error_app1 in Hn by auto. rewrite (E i nd Hi Hn). rewrite cnt_other by (intros ->; contradiction). f_equal. f_equal. symmetry. apply pre_img; [eexists; eauto|]. intros q Hq. rewrite A. eapply G; eauto.
    - intros b Hb. unfold look in Hb. cbn [st_cells aget] in Hb. destruct (Nat.eqb b a) eqn:Eb.
      + apply Nat.eqb_eq in Eb. exists (length h). split; [left; auto|congruence].
      + destruct (F b Hb) as (i & Hi & Ha). exists i. split; [right; auto|]. rewrite Hold; auto.
    - intros i nd q Hn Hq. rewrite app_length. simpl. destruct (lt_dec i (length h)) as [Hi|Hi].
      + rewrite nth_error_app1 in Hn by auto. specialize (G i nd q Hn Hq). lia.
      + rewrite nth_error_app2 in Hn by lia. destruct (i - length h) as [|[|]]; simpl in Hn; try discriminate. injection Hn as <-. destruct Hq as [[]|(r & l & [] & _)].
  Qed.

  (** *** Clones *)
  Lemma nmapM_elems {A B} (f : A -> nres B) : forall l r, nmapM f l = NOk r -> Forall2 (fun x y => f x = NOk y) l r.
  Proof.
    induction l as [|x l IH]; simpl; intros r H; [injection H as <-; constructor|]. destruct (f x) as [y| |] eqn:Ex; simpl in H; try discriminate.
    destruct (nmapM f l) as [ys| |] eqn:El; simpl in H; try discriminate. injection H as <-. constructor; auto.
  Qed.
  Lemma nmapM_all {A B} (f : A -> nres B) (g : A -> B) : forall l, (forall x, In x l -> f x = NOk (g x)) -> nmapM f l = NOk (map g l).
  Proof. induction l as [|x l IH]; simpl; intros H; auto. rewrite H by auto. simpl. rewrite IH by auto. reflexivity. Qed.
  Lemma set_of_same l l' : (forall x : nat, In x l <-> In x l') -> to_set l = to_set l'.
  Proof. intros H. apply sorted_ext; try apply sorted_to_set. intros x. rewrite !In_to_set. auto. Qed.

  (** a set of pointers is copied *)
  Lemma copy_set m (f F : nat -> option nat) l r : (forall p q, f p = Some q -> F (at_ m p) = Some (at_ m q)) ->
    nmapM (fun p => n_of_opt (f p)) l = NOk r -> exists r', nmapM (fun p => n_of_opt (F p)) (img_set m l) = NOk r' /\ to_set r' = img_set m (to_set r).
  Proof.
    intros HF H. apply nmapM_elems in H.
    assert (H1 : forall p, In p l -> exists q, f p = Some q /\ In q r).
    { intros p Hp. destruct (Forall2_In_l _ _ _ _ H Hp) as (q & Hq & E0). exists q. split; auto. destruct (f p); simpl in E0; inversion E0; auto. }
    assert (H2 : forall q, In q r -> exists p, f p = Some q /\ In p l).
    { intros q Hq. destruct (Forall2_In_r _ _ _ _ H Hq) as (p & Hp & E0). exists p. split; auto. destruct (f p); simpl in E0; inversion E0; auto. }
    exists (map (fun a => match F a with Some b => b | None => 0 end) (img_set m l)). split.
    - apply nmapM_all. intros a Ha. unfold img_set in Ha. apply In_to_set, in_map_iff in Ha as (p & <- & Hp). destruct (H1 p Hp) as (q & Hq & _). rewrite (HF _ _ Hq). reflexivity.
    - unfold img_set at 2. apply set_of_same. intros x. rewrite !in_map_iff. unfold img_set. split.
      + intros (a & <- & Ha). apply In_to_set, in_map_iff in Ha as (p & <- & Hp). destruct (H1 p Hp) as (q & Hq & Hr). rewrite (HF _ _ Hq). exists q. split; auto. apply In_to_set. auto.
      + intros (q & <- & Hq). apply (In_to_set r q) in Hq. destruct (H2 q Hq) as (p & Hp & Hl). exists (at_ m p). rewrite (HF _ _ Hp). split; auto. apply In_to_set, in_map. auto.
  Qed.
  Lemma copy_img m (f F : nat -> option nat) nd nw : (forall p q, f p = Some q -> F (at_ m p) = Some (at_ m q)) ->
    copy_node f nd = NOk nw -> copy_node F (img m nd) = NOk (img m nw).
  Proof.
    intros HF H. unfold copy_node in *. destruct (nmapM _ (n_eps nd)) as [e| |] eqn:E1; simpl in H; try discriminate.
    destruct (nmapM _ (n_next nd)) as [nx| |] eqn:E2; simpl in H; try discriminate. injection H as <-. unfold img at 1 2. cbn [n_eps n_next].
    destruct (copy_set m f F _ _ HF E1) as (e' & E1' & Hs). rewrite E1'. cbn [nbind].
    assert (G : forall l r, nmapM (fun kv : crange * list nat => ndo v <- nmapM (fun p => n_of_opt (f p)) (snd kv); NOk (fst kv, to_set v)) l = NOk r ->
      nmapM (fun kv : crange * list nat => ndo v <- nmapM (fun p => n_of_opt (F p)) (snd kv); NOk (fst kv, to_set v)) (map (fun x => (fst x, img_set m (snd x))) l) = NOk (map (fun x => (fst x, img_set m (snd x))) r)).
    { induction l as [|[k v] l IH]; intros r Hr; [injection Hr as <-; reflexivity|]. cbn [nmapM map fst snd] in *. destruct (nmapM _ v) as [y| |] eqn:Ey; simpl in Hr; try discriminate.
      destruct (nmapM _ l) as [ys| |] eqn:Eys; simpl in Hr; try discriminate. injection Hr as <-. destruct (copy_set m f F _ _ HF Ey) as (y' & Ey' & Hy). rewrite Ey'. cbn [nbind]. rewrite (IH _ eq_refl). cbn [nbind map fst snd]. rewrite Hy. reflexivity. }
    rewrite (G _ _ E2). cbn [nbind]. unfold img. cbn [n_eps n_next]. rewrite Hs. reflexivity.
  Qed.
  Lemma copy_target f nd nw q : copy_node f nd = NOk nw -> target nw q -> exists p, f p = Some q.
  Proof.
    intros H Hq. unfold copy_node in H. destruct (nmapM _ (n_eps nd)) as [e| |] eqn:E1; simpl in H; try discriminate.
    destruct (nmapM _ (n_next nd)) as [nx| |] eqn:E2; simpl in H; try discriminate. injection H as <-.
    assert (G : forall l r, nmapM (fun p => n_of_opt (f p)) l = NOk r -> In q r -> exists p, f p = Some q).
    { intros l r Hr Hi. apply nmapM_elems in Hr. destruct (Forall2_In_r _ _ _ _ Hr Hi) as (p & Hp & E0). exists p. destruct (f p); simpl in E0; inversion E0; auto. }
    destruct Hq as [Hq|(r & s & Hrs & Hq)]; cbn [n_eps n_next] in *; [exact (G _ _ E1 (proj1 (In_to_set e q) Hq))|].
    apply nmapM_elems in E2. destruct (Forall2_In_r _ _ _ _ E2 Hrs) as ([k v] & Hkv & E0). cbn [fst snd] in E0. destruct (nmapM _ v) as [y| |] eqn:Ey; simpl in E0; try discriminate. injection E0 as <- <-. exact (G _ _ Ey (proj1 (In_to_set y q) Hq)).
  Qed.

  Lemma sim_news {A} : forall (l : list A) h m O L s, sim h m O L s ->
    exists m' s', cmapM (fun _ => new al) l s = COk (map (at_ m') (seq (length h) (length l))) s' /\ pre m m' /\
      sim (h ++ repeat nnode_default (length l)) m' (seq (length h) (length l) ++ O) L s'.
  Proof.
    induction l as [|x l IH]; intros h m O L s S.
    - exists m, s. split; [reflexivity|]. split; [apply pre_refl|]. simpl. rewrite app_nil_r. auto.
    - destruct (sim_new _ _ _ _ _ S) as (a & s1 & E1 & S1). destruct (IH _ _ _ _ _ S1) as (m' & s2 & E2 & P2 & S2). rewrite app_length in *. simpl in *. replace (length h + 1) with (Datatypes.S (length h)) in * by lia.
      exists m', s2. split; [|split].
      + rewrite (cbind_ok _ _ _ _ _ E1), (cbind_ok _ _ _ _ _ E2). unfold ret. f_equal. f_equal. symmetry. rewrite (pre_at _ _ _ P2) by (rewrite app_length, (s_len _ _ _ _ _ S); simpl; lia).
        unfold at_. rewrite app_nth2, (s_len _ _ _ _ _ S), Nat.sub_diag by (rewrite (s_len _ _ _ _ _ S); lia). reflexivity.
      + eapply pre_trans; [eexists; reflexivity|exact P2].
      + rewrite <- app_assoc in S2. simpl in S2. eapply sim_perm; [|exact S2]. symmetry. apply Permutation_middle.
  Qed.

  Lemma upd_mid {A} (l1 l2 : list A) x f : upd_nth (length l1) f (l1 ++ x :: l2) = l1 ++ f x :: l2.
  Proof. induction l1; simpl; [reflexivity|]. f_equal. auto. Qed.

  (** the loop that fills in the nodes of a clone *)
  Lemma sim_copies m O L f F h : (forall p q, f p = Some q -> F (at_ m p) = Some (at_ m q)) ->
    forall todo os done s, sim (h ++ done ++ repeat nnode_default (length todo)) m O L s ->
    Forall2 (fun o nw => exists nd, nth_error h o = Some nd /\ copy_node f nd = NOk nw) os todo ->
    (forall p q, f p = Some q -> q < length h + length done + length todo) ->
    (forall o, In o os -> In o O /\ ~ In o L) -> (forall i, In i (seq (length h + length done) (length todo)) -> In i O /\ ~ In i L) ->
    exists s', citer (fun x => lock (fst x) ;; cdo nd <- peek (snd x); cdo nd' <- lift (copy_node F nd); poke (fst x) (fun _ => nd') ;; unlock (fst x))
      (combine (map (at_ m) (seq (length h + length done) (length todo))) (map (at_ m) os)) s = COk tt s' /\ sim (h ++ done ++ todo) m O L s'.
  Proof.
    intros HF. induction todo as [|nw todo IH]; intros os done s S H Hb Ho Hw.
    - exists s. inversion H; subst. split; [reflexivity|exact S].
    - inversion H as [|o ? os' ? (nd & Hn & Hc) H' E1 E2]; subst. cbn [seq length map combine citer]. set (w := length h + length done) in *.
      assert (Hwo : In w O /\ ~ In w L) by (apply Hw; simpl; left; auto). destruct (Ho o (or_introl eq_refl)) as [Ho1 Ho2].
      assert (Hlt : o < length h) by (apply nth_error_Some; congruence).
      cbn [fst snd]. destruct (sim_lockit _ _ _ _ _ w S) as (s1 & E1 & S1); try tauto.
      assert (Hn' : nth_error (h ++ done ++ repeat nnode_default (length (nw :: todo))) o = Some nd) by (rewrite nth_error_app1; auto).
      assert (Hol : ~ In o (w :: L)) by (intros [E0|E0]; [unfold w in E0; lia|auto]).
      pose proof (sim_peek _ _ _ _ _ _ _ S1 Ho1 Hol Hn') as E2. pose proof (copy_img m f F nd nw HF Hc) as E3.
      destruct (sim_poke _ _ _ _ _ w (fun _ => img m nw) (fun _ => nw) S1) as (s2 & E4 & S2).
      { left. auto. } { auto. }
      { intros nd' q _ Hq. destruct (copy_target _ _ _ _ Hc Hq) as (p & Hp). apply Hb in Hp. rewrite !app_length, repeat_length. simpl in *. lia. }
      destruct (sim_unlock _ _ _ _ _ _ S2) as (s3 & E5 & S3); [tauto|].
      assert (Eb : (lock (at_ m w) ;; cdo nd <- peek (at_ m o); cdo nd' <- lift (copy_node F nd); poke (at_ m w) (fun _ => nd') ;; unlock (at_ m w)) s = COk tt s3).
      { rewrite (cbind_ok _ _ _ _ _ E1), (cbind_ok _ _ _ _ _ E2). erewrite cbind_ok; [|unfold lift; rewrite E3; reflexivity]. rewrite (cbind_ok _ _ _ _ _ E4). exact E5. }
      rewrite (cbind_ok _ _ _ _ _ Eb). destruct (IH os' (done ++ [nw]) s3) as (s4 & E6 & S4).
      + cbn [length repeat] in S3. rewrite app_assoc in S3. unfold w in S3. rewrite <- app_length, upd_mid in S3. rewrite <- !app_assoc in S3. rewrite <- app_assoc. exact S3.
      + exact H'.
      + intros p q Hp. apply Hb in Hp. rewrite app_length. simpl in *. lia.
      + intros o' Ho'. apply Ho. right. auto.
      + intros i Hi. apply Hw. rewrite app_length in Hi. simpl in *. right. replace (length h + (length done + 1)) with (Datatypes.S w) in Hi by (unfold w; lia). auto.
      + exists s4. rewrite app_length in E6. simpl in E6. replace (length h + (length done + 1)) with (Datatypes.S w) in E6 by (unfold w; lia). split; [exact E6|]. rewrite <- app_assoc in S4. exact S4.
  Qed.

  Lemma pos_img m nodes p : (forall i j, In i nodes -> In j nodes -> at_ m i = at_ m j -> i = j) -> In p nodes -> pos_of (map (at_ m) nodes) (at_ m p) = pos_of nodes p.
  Proof.
    unfold pos_of. induction nodes as [|y l IH]; simpl; intros Hi Hp; auto. destruct (Nat.eqb p y) eqn:E0.
    - apply Nat.eqb_eq in E0. subst. rewrite Nat.eqb_refl. auto.
    - apply Nat.eqb_neq in E0. destruct (Nat.eqb (at_ m p) (at_ m y)) eqn:E1; [apply Nat.eqb_eq in E1; apply Hi in E1; auto; congruence|]. f_equal. apply IH; auto. destruct Hp; [congruence|auto].
  Qed.

  Definition fine (h : heap) (O L : list nat) (n : nfa) : Prop := forall p, In p (owned n) -> In p O /\ ~ In p L.
  Lemma sim_clone h m O L s n h' c : sim h m O L s -> fine h O L n -> clone h n = NOk (h', c) ->
    exists m' s', c_clone al (img_nfa m n) s = COk (img_nfa m' c) s' /\ pre m m' /\ sim h' m' (owned c ++ O) L s' /\ (forall p, In p (owned c) -> length h <= p) /\ length h <= length h'.
  Proof.
    intros S Hf Hc. unfold clone in Hc. cbv zeta in Hc. pose (f := fun p => option_map (fun i => length h + i) (pos_of (nfa_nodes n) p)). fold f in Hc. change (option_map (fun i => length h + i) (pos_of (nfa_nodes n) (nfa_begin n))) with (f (nfa_begin n)) in Hc. change (option_map (fun i => length h + i) (pos_of (nfa_nodes n) (nfa_end n))) with (f (nfa_end n)) in Hc.
    destruct (nmapM _ (nfa_nodes n)) as [olds| |] eqn:E1; cbn [nbind n_of_opt] in Hc; try discriminate. destruct (nmapM _ olds) as [news| |] eqn:E2; cbn [nbind n_of_opt] in Hc; try discriminate.
    destruct (f (nfa_begin n)) as [b|] eqn:E3; cbn [nbind n_of_opt] in Hc; try discriminate. destruct (f (nfa_end n)) as [e|] eqn:E4; cbn [nbind n_of_opt] in Hc; try discriminate. injection Hc as <- <-.
    apply nmapM_elems in E1. apply nmapM_elems in E2. pose proof (Forall2_len _ _ _ E1) as L1. pose proof (Forall2_len _ _ _ E2) as L2.
    destruct (sim_news (nfa_nodes n) _ _ _ _ _ S) as (m1 & s1 & F1 & P1 & S1). set (k := length (nfa_nodes n)) in *.
    assert (Hown : forall p, In p (nfa_nodes n) -> In p O /\ ~ In p L) by (intros p Hp; apply Hf, in_or_app; auto).
    assert (Hlt : forall p, In p O -> p < length m) by (intros p Hp; rewrite (s_len _ _ _ _ _ S); eapply s_bound; eauto).
    assert (Hfr : forall p q, f p = Some q -> In p (nfa_nodes n) /\ exists i, pos_of (nfa_nodes n) p = Some i /\ q = length h + i /\ i < k).
    { intros p q Hp. unfold f in Hp. destruct (pos_of (nfa_nodes n) p) as [i|] eqn:Ei; simpl in Hp; inversion Hp; subst. pose proof (pos_of_Some _ _ _ Ei) as Hn. split; [eapply nth_error_In; eauto|]. exists i. split; auto. split; auto. apply nth_error_Some. congruence. }
    assert (Hmap : map (at_ m) (nfa_nodes n) = map (at_ m1) (nfa_nodes n)) by (symmetry; apply pre_map; auto; intros i Hi; apply Hlt, Hown; auto).
    unfold c_clone. cbn [img_nfa nfa_nodes nfa_begin nfa_end].
    assert (F1' : cmapM (fun _ => new al) (map (at_ m) (nfa_nodes n)) s = COk (map (at_ m1) (seq (length h) k)) s1).
    { rewrite <- F1. clear. generalize s. induction (nfa_nodes n) as [|x l IH]; intros s0; [reflexivity|]. simpl. unfold cbind, bind_or. destruct (new al s0); auto. rewrite IH. reflexivity. }
    rewrite (cbind_ok _ _ _ _ _ F1'). cbv zeta. rewrite Hmap. set (F := fun p => match pos_of (map (at_ m1) (nfa_nodes n)) p with Some i => nth_error (map (at_ m1) (seq (length h) k)) i | None => None end).
    assert (HF : forall p q, f p = Some q -> F (at_ m1 p) = Some (at_ m1 q)).
    { intros p q Hp. destruct (Hfr p q Hp) as (Hin & i & Hi & -> & Hik). unfold F. rewrite pos_img; auto.
      - rewrite Hi, nth_error_map. rewrite (nth_error_nth' _ 0) by (rewrite seq_length; auto). rewrite seq_nth by auto. reflexivity.
      - intros x y Hx Hy. apply (s_inj _ _ _ _ _ S1); apply in_or_app; right; apply Hown; auto. }
    assert (Hnl : forall i, In i (seq (length h) k) -> ~ In i L). { intros i Hi Hl. apply in_seq in Hi. apply (s_lock _ _ _ _ _ S) in Hl. apply (s_bound _ _ _ _ _ S) in Hl. lia. }
    assert (HX : exists s', citer (fun x => lock (fst x) ;; cdo nd <- peek (snd x); cdo nd' <- lift (copy_node F nd); poke (fst x) (fun _ => nd') ;; unlock (fst x))
      (combine (map (at_ m1) (seq (length h) k)) (map (at_ m1) (nfa_nodes n))) s1 = COk tt s' /\ sim (h ++ news) m1 (seq (length h) k ++ O) L s').
    { destruct (sim_copies m1 (seq (length h) k ++ O) L f F h HF news (nfa_nodes n) [] s1) as (s2 & F2 & S2).
      - replace (length news) with k by (unfold k; lia). exact S1.
      - assert (G : forall l1 l2 l3, Forall2 (fun p nd => n_of_opt (nth_error h p) = NOk nd) l1 l2 -> Forall2 (fun nd nw => copy_node f nd = NOk nw) l2 l3 -> Forall2 (fun o nw => exists nd, nth_error h o = Some nd /\ copy_node f nd = NOk nw) l1 l3).
        { induction l1 as [|x l1 IHl]; intros l2 l3 A1 A2; inversion A1; subst; inversion A2; subst; constructor; eauto. exists y. split; auto. destruct (nth_error h x); simpl in *; congruence. }
        eapply G; eauto.
      - intros p q Hp. destruct (Hfr p q Hp) as (_ & i & _ & -> & Hi). simpl. unfold k in Hi. lia.
      - intros o Ho. split; [apply in_or_app; right|]; apply Hown; auto.
      - intros i Hi. simpl in Hi. rewrite Nat.add_0_r in Hi. replace (length news) with k in Hi by (unfold k; lia). split; [apply in_or_app; auto|auto].
      - exists s2. simpl in *. rewrite Nat.add_0_r in F2. replace (length news) with k in F2 by (unfold k; lia). auto. }
    destruct HX as (s2 & F2 & S2). rewrite (cbind_ok _ _ _ _ _ F2).
    assert (Hb : F (at_ m (nfa_begin n)) = Some (at_ m1 b)). { rewrite <- (pre_at m m1); auto. apply Hlt, Hf, in_or_app. right. simpl. auto. }
    assert (He : F (at_ m (nfa_end n)) = Some (at_ m1 e)). { rewrite <- (pre_at m m1); auto. apply Hlt, Hf, in_or_app. right. simpl. auto. }
    erewrite cbind_ok; [|unfold lift; fold (F (at_ m (nfa_begin n))); rewrite Hb; reflexivity].
    destruct (Hfr _ _ E3) as (_ & ib & _ & Eb & Hib). destruct (Hfr _ _ E4) as (_ & ie & _ & Ee & Hie).
    assert (Inb : In b (seq (length h) k)) by (apply in_seq; lia). assert (Ine : In e (seq (length h) k)) by (apply in_seq; lia).
    destruct (sim_retain _ _ _ _ _ b S2) as (s3 & F3 & S3); [apply in_or_app; auto|]. rewrite (cbind_ok _ _ _ _ _ F3).
    erewrite cbind_ok; [|unfold lift; fold (F (at_ m (nfa_end n))); rewrite He; reflexivity].
    destruct (sim_retain _ _ _ _ _ e S3) as (s4 & F4 & S4); [right; apply in_or_app; auto|]. rewrite (cbind_ok _ _ _ _ _ F4).
    exists m1, s4. split; [reflexivity|]. split; auto. split; [|split].
    - unfold owned. cbn [nfa_nodes nfa_begin nfa_end]. eapply sim_perm; [|exact S4]. rewrite <- app_assoc. simpl. 
      eapply perm_trans; [apply perm_swap|]. eapply perm_trans; [apply perm_skip, Permutation_middle|]. apply Permutation_middle.
    - intros p Hp. unfold owned in Hp. cbn [nfa_nodes nfa_begin nfa_end] in Hp. apply in_app_or in Hp as [Hp|[<-|[<-|[]]]]; [apply in_seq in Hp; lia|lia|lia].
    - rewrite app_length. lia.
  Qed.
End Alloc.
