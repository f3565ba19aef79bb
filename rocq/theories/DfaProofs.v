(** The subset construction: the deterministic automaton simulates the NFA exactly. *)
From Verif Require Import Lib Hir NfaPath NfaModel NfaProofs DfaModel DfaEdges.

(** *** Lookup in a table of disjoint ranges *)
Lemma next_back_app {V} c (m : list (crange * V)) x :
  next_back c (m ++ [x]) = if N.leb (fst (fst x)) c then Some x else next_back c m.
Proof. unfold next_back. rewrite fold_left_app. reflexivity. Qed.

Lemma next_back_In {V} c (m : list (crange * V)) x : next_back c m = Some x -> In x m /\ (fst (fst x) <= c)%N.
Proof.
  induction m as [|y m IH] using rev_ind; [discriminate|]. rewrite next_back_app.
  destruct (N.leb_spec (fst (fst y)) c); intros E.
  - inversion E; subst. split; auto. apply in_or_app; simpl; auto.
  - apply IH in E as [E1 E2]. split; auto. apply in_or_app; auto.
Qed.

Lemma SS_app_inv {A} (R : A -> A -> Prop) l1 l2 : StronglySorted R (l1 ++ l2) ->
  StronglySorted R l1 /\ StronglySorted R l2 /\ forall x y, In x l1 -> In y l2 -> R x y.
Proof.
  induction l1 as [|a l1 IH]; simpl; intros H.
  - split; [constructor|]. split; auto. intros x y [].
  - inversion H as [|? ? H1 H2]; subst. destruct (IH H1) as (A1 & A2 & A3). apply Forall_app in H2 as [B1 B2].
    split; [constructor; auto|]. split; auto. intros x y [->|Hx] Hy; auto. rewrite Forall_forall in B2. auto.
Qed.

Lemma ranges_ok_app_inv {V} (l1 l2 : list (crange * V)) : ranges_ok (l1 ++ l2) ->
  ranges_ok l1 /\ ranges_ok l2 /\ forall x y, In x l1 -> In y l2 -> (snd (fst x) <= fst (fst y))%N.
Proof.
  intros [H1 H2]. apply Forall_app in H1 as [A B]. apply SS_app_inv in H2 as (C & D & F). unfold ranges_ok. auto.
Qed.

Theorem lookup_spec {V} c (m : list (crange * V)) v : ranges_ok m ->
  (lookup c m = Some v <-> exists r, In (r, v) m /\ in_range c r).
Proof.
  unfold lookup. induction m as [|[r v'] m IH] using rev_ind; intros Hr.
  - simpl. split; [discriminate|intros (r & [] & _)].
  - apply ranges_ok_app_inv in Hr as (R1 & R2 & R3). rewrite next_back_app. simpl.
    assert (Hrr : (fst r < snd r)%N) by (destruct R2 as [R2 _]; inversion R2; auto).
    destruct (N.leb_spec (fst r) c) as [Hle|Hgt].
    + destruct (N.ltb_spec c (snd r)) as [Hlt|Hge].
      * split.
        -- intros E; inversion E; subst. exists r. split; [apply in_or_app; simpl; auto|split; auto].
        -- intros (r' & Hin & Hc). apply in_app_or in Hin as [Hin|[E|[]]]; [|inversion E; subst; auto].
           specialize (R3 (r', v) (r, v') Hin (or_introl eq_refl)). simpl in R3. destruct Hc. lia.
      * split; [discriminate|]. intros (r' & Hin & Hc). apply in_app_or in Hin as [Hin|[E|[]]].
        -- specialize (R3 (r', v) (r, v') Hin (or_introl eq_refl)). simpl in R3. destruct Hc. lia.
        -- inversion E; subst. destruct Hc. lia.
    + rewrite IH by auto. split; intros (r' & Hin & Hc); exists r'; split; auto.
      * apply in_or_app; auto.
      * apply in_app_or in Hin as [Hin|[E|[]]]; auto. inversion E; subst. destruct Hc. lia.
Qed.

Lemma lookup_None {V} c (m : list (crange * V)) : ranges_ok m ->
  (lookup c m = None <-> forall r v, In (r, v) m -> ~ in_range c r).
Proof.
  intros Hr. split.
  - intros E r v Hin Hc. assert (lookup c m = Some v) by (apply lookup_spec; eauto). congruence.
  - intros H. destruct (lookup c m) as [v|] eqn:E; auto. apply lookup_spec in E as (r & Hin & Hc); auto. exfalso. eapply H; eauto.
Qed.

(** inserting at the end of a sorted table *)
Lemma rset_last {V} r (v : V) m : (forall x, In x m -> (fst (fst x) < fst r)%N) -> rset r v m = m ++ [(r, v)].
Proof.
  induction m as [|[r' v'] m IH]; simpl; intros H; auto.
  assert (Hlt : (fst r' < fst r)%N) by (apply (H (r', v')); auto).
  destruct (N.compare_spec (fst r) (fst r')); try lia. f_equal. apply IH. auto.
Qed.

(** *** Runs of a table automaton *)
Definition dnext (nodes : list dnode) (i : nat) (c : N) : option nat :=
  match nth_error nodes i with Some nd => lookup c nd | None => None end.
Fixpoint drun (nodes : list dnode) (i : nat) (w : word) : option nat :=
  match w with
  | [] => Some i
  | c :: w' => match dnext nodes i c with Some j => drun nodes j w' | None => None end
  end.
Lemma drun_app nodes i u v : drun nodes i (u ++ v) = match drun nodes i u with Some j => drun nodes j v | None => None end.
Proof. revert i; induction u as [|c u IH]; simpl; intros i; auto. destruct (dnext nodes i c); auto. Qed.

(** *** The work list *)
Section Worklist.
  Variable h : list nnode.
  Hypothesis Hok : okh h.
  Hypothesis Hcl : closed (hedge h) (fun p => p < length h).
  Variable b0 : nat.
  Hypothesis Hb0 : b0 < length h.

  (** the set reached by a word *)
  Definition reaches (w : word) (s : list nat) : Prop := sorted s /\ forall x, In x s <-> path (hedge h) b0 w x.
  Definition set_ok (s : list nat) : Prop := s <> [] /\ exists w, reaches w s.

  Lemma set_ok_lt s p : set_ok s -> In p s -> p < length h.
  Proof. intros (_ & w & _ & H) Hin. apply H in Hin. apply (path_closed _ _ _ _ _ Hcl Hb0 Hin). Qed.

  Definition trs (s : list nat) : list (crange * list nat) := match trans h s with Ok l => l | _ => [] end.

  Lemma path_snoc_chr x c y : path (hedge h) x [c] y <-> exists z, path (hedge h) x [] z /\ cstep h z c y.
  Proof.
    split.
    - intros Hp. remember [c] as w eqn:Ew. revert Ew. induction Hp as [z|z y z' w Hr Hp IH|z c' y w z' Hr Hp IH]; intros Ew; [discriminate| |].
      + destruct (IH Ew) as (z1 & H1 & H2). exists z1. split; auto. eapply p_eps; eauto.
      + inversion Ew; subst. exists z. split; [constructor|]. exists y. auto.
    - intros (z & H1 & y' & H2 & H3). change [c] with ([] ++ [c]). eapply path_app; eauto. eapply p_chr; eauto.
  Qed.
  Lemma path_split R x w1 w2 y : path R x (w1 ++ w2) y -> exists z, path R x w1 z /\ path R z w2 y.
  Proof.
    intros Hp. remember (w1 ++ w2) as w eqn:Ew. revert w1 Ew.
    induction Hp as [z|z y z' w Hr Hp IH|z c y w z' Hr Hp IH]; intros w1 Ew.
    - symmetry in Ew. apply app_eq_nil in Ew as [-> ->]. exists z. split; constructor.
    - destruct (IH _ Ew) as (z1 & H1 & H2). exists z1. split; auto. eapply p_eps; eauto.
    - destruct w1 as [|c1 w1]; simpl in Ew.
      + subst. exists z. split; [constructor|]. eapply p_chr; eauto.
      + inversion Ew; subst. destruct (IH _ eq_refl) as (z1 & H1 & H2). exists z1. split; auto. eapply p_chr; eauto.
  Qed.
  Lemma path_snoc w c y : path (hedge h) b0 (w ++ [c]) y <-> exists z, path (hedge h) b0 w z /\ cstep h z c y.
  Proof.
    split.
    - intros Hp. apply path_split in Hp as (z & H1 & H2). apply path_snoc_chr in H2 as (z' & H2 & H3).
      exists z'. split; auto. rewrite <- (app_nil_r w). eapply path_app; eauto.
    - intros (z & H1 & y' & H2 & H3). eapply path_app; eauto. eapply p_chr; eauto.
  Qed.

  Lemma trs_ok s : set_ok s -> trans h s = Ok (trs s) /\ ranges_ok (trs s) /\
    Forall (fun x => sorted (snd x) /\ snd x <> []) (trs s) /\
    forall c q, lcov (trs s) c q <-> exists x, In x s /\ cstep h x c q.
  Proof.
    intros Hs. destruct (trans_ok h s Hok Hcl) as (l & E & H1 & H2 & H3); [intros p; apply set_ok_lt; auto|].
    unfold trs. rewrite E. auto.
  Qed.

  (** a target set is the set reached by one more character *)
  Lemma trs_target s w r s' c : reaches w s -> set_ok s -> In (r, s') (trs s) -> in_range c r -> reaches (w ++ [c]) s'.
  Proof.
    intros [Hs1 Hs2] Hso Hin Hc. destruct (trs_ok s Hso) as (_ & [R1 R2] & R3 & R4).
    rewrite Forall_forall in R3. destruct (R3 _ Hin) as [Hss _]. split; auto.
    intros x. rewrite path_snoc. split.
    - intros Hx. destruct (proj1 (R4 c x)) as (z & Hz & Hcs); [exists r, s'; auto|]. exists z. split; auto. apply Hs2; auto.
    - intros (z & Hz & Hcs). apply Hs2 in Hz. destruct (proj2 (R4 c x)) as (r' & s'' & Hin' & Hc' & Hx); [eauto|].
      assert (E : (r', s'') = (r, s')); [|inversion E; subst; auto].
      clear -R1 R2 Hin Hin' Hc Hc'. induction R2 as [|a l R2 IH Ha]; [destruct Hin|]. inversion R1; subst.
      rewrite Forall_forall in Ha. unfold in_range in *. destruct Hin as [->|Hin], Hin' as [->|Hin']; auto.
      + apply Ha in Hin'. simpl in *. lia.
      + apply Ha in Hin. simpl in *. lia.
  Qed.

  Lemma trs_set_ok s r s' : set_ok s -> In (r, s') (trs s) -> set_ok s'.
  Proof.
    intros Hs Hin. destruct (trs_ok s Hs) as (_ & [R1 _] & R3 & _). rewrite Forall_forall in R1, R3.
    specialize (R1 _ Hin). simpl in R1. split; [apply (R3 _ Hin)|].
    destruct Hs as [Hne [w Hw]]. exists (w ++ [fst r]). eapply trs_target; eauto; [split; eauto|split; lia].
  Qed.

  Definition link (refs : list (list nat * nat)) (x : crange * list nat) (y : crange * nat) : Prop :=
    fst x = fst y /\ In (snd x, snd y) refs.

  Record dinv (L : list nat -> list (crange * list nat)) (st : dstate) : Prop := {
    di_nodup : NoDup (map fst (ds_ref st));
    di_seq : map snd (ds_ref st) = seq 0 (length (ds_nodes st));
    di_sets : forall s i, In (s, i) (ds_ref st) -> set_ok s;
    di_q : forall s, In s (ds_q st) -> exists i, In (s, i) (ds_ref st);
    di_nodes : forall s i, In (s, i) (ds_ref st) -> exists nd, nth_error (ds_nodes st) i = Some nd /\ Forall2 (link (ds_ref st)) (L s) nd;
    di_absent : forall s, ref_of (ds_ref st) s = None -> L s = [];
    di_begin : exists s, In (s, 0) (ds_ref st) /\ reaches [] s
  }.

  Lemma refs_inj L st s1 s2 i : dinv L st -> In (s1, i) (ds_ref st) -> In (s2, i) (ds_ref st) -> s1 = s2.
  Proof.
    intros [_ Hseq _ _ _ _ _] H1 H2. assert (Hn : NoDup (map snd (ds_ref st))) by (rewrite Hseq; apply seq_NoDup).
    clear Hseq. induction (ds_ref st) as [|[s j] l IH]; simpl in *; [tauto|]. inversion Hn; subst.
    destruct H1 as [E1|H1], H2 as [E2|H2].
    - congruence.
    - inversion E1; subst. exfalso. apply H3. apply (in_map snd) in H2. auto.
    - inversion E2; subst. exfalso. apply H3. apply (in_map snd) in H1. auto.
    - auto.
  Qed.
  Lemma refs_get L st s i : dinv L st -> (In (s, i) (ds_ref st) <-> ref_of (ds_ref st) s = Some i).
  Proof.
    intros [Hn _ _ _ _ _ _]. unfold ref_of. split; intros H.
    - apply aget_NoDup; auto. apply list_eqb_eq.
    - eapply aget_In; eauto. apply list_eqb_eq.
  Qed.

  Lemma aset_absent {V} s (v : V) refs : aget list_eqb s refs = None -> aset list_eqb s v refs = refs ++ [(s : list nat, v)].
  Proof.
    induction refs as [|[s' v'] refs IH]; simpl; intros E; auto.
    destruct (list_eqb s s') eqn:El; [discriminate|]. f_equal. auto.
  Qed.

  Lemma link_mono refs refs' l nd : (forall x, In x refs -> In x refs') -> Forall2 (link refs) l nd -> Forall2 (link refs') l nd.
  Proof. intros Hm. induction 1 as [|x y l nd [H1 H2] Hf IH]; constructor; auto. split; auto. Qed.

  Definition snoc_at (cur : list nat) (x : crange * list nat) (L : list nat -> list (crange * list nat)) (s : list nat) :=
    if list_eqb s cur then L s ++ [x] else L s.

  (** One transition *)
  Lemma add_target_ok L st cur c (range : crange) next :
    dinv L st -> In (cur, c) (ds_ref st) -> set_ok next ->
    (forall x, In x (L cur) -> (fst (fst x) < fst range)%N) ->
    exists st', add_target cur st (range, next) = Ok st' /\ dinv (snoc_at cur (range, next) L) st' /\
      (forall x, In x (ds_ref st) -> In x (ds_ref st')) /\
      (forall s i, In (s, i) (ds_ref st') -> In (s, i) (ds_ref st) \/ (s = next /\ length (ds_nodes st) <= i)) /\
      ds_q st' = ds_q st ++ [next] /\ ds_done st' = ds_done st.
  Proof.
    intros Hi Hc Hnext Hlast. assert (Hi' := Hi). destruct Hi' as [I1 I2 I3 I4 I5 I7 I6].
    assert (Hidx : forall s i, In (s, i) (ds_ref st) -> i < length (ds_nodes st)).
    { intros s i Hin. apply (in_map snd) in Hin. rewrite I2 in Hin. apply in_seq in Hin. simpl in Hin. lia. }
    unfold add_target.
    set (P := fun nodes refs i =>
      (forall x, In x (ds_ref st) -> In x refs) /\
      (forall s j, In (s, j) refs -> In (s, j) (ds_ref st) \/ (s = next /\ length (ds_nodes st) <= j)) /\
      NoDup (map fst refs) /\ map snd refs = seq 0 (length nodes) /\ In (next, i) refs /\
      (forall s j, In (s, j) refs -> exists nd, nth_error nodes j = Some nd /\
          (In (s, j) (ds_ref st) -> nth_error (ds_nodes st) j = Some nd) /\ (~ In (s, j) (ds_ref st) -> nd = []))).
    assert (HP : exists nodes refs i, P nodes refs i /\ (forall s j, In (s, j) refs -> ~ In (s, j) (ds_ref st) -> s = next /\ ref_of (ds_ref st) next = None) /\
       match ref_of (ds_ref st) next with
       | Some i => (ds_nodes st, ds_ref st, i)
       | None => (ds_nodes st ++ [[]], aset list_eqb next (length (ds_nodes st)) (ds_ref st), length (ds_nodes st))
       end = (nodes, refs, i)).
    { destruct (ref_of (ds_ref st) next) as [i|] eqn:E.
      - exists (ds_nodes st), (ds_ref st), i. apply (refs_get L st) in E; auto. split; [|split; [tauto|auto]].
        split; auto. split; auto. split; auto. split; auto. split; auto.
        intros s j Hin. destruct (I5 s j Hin) as (nd & Hnd & _). exists nd. split; auto. split; auto. tauto.
      - exists (ds_nodes st ++ [[]]), (aset list_eqb next (length (ds_nodes st)) (ds_ref st)), (length (ds_nodes st)).
        assert (Enone : ~ In next (map fst (ds_ref st))) by (apply (aget_None list_eqb list_eqb_eq); auto).
        rewrite aset_absent by auto. split; [|split; auto].
        + split; [intros x Hx; apply in_or_app; auto|].
          split; [intros s j Hin; apply in_app_or in Hin as [Hin|[Ex|[]]]; auto; inversion Ex; subst; auto|].
          split; [|split; [|split]].
          * rewrite map_app. simpl. apply nodup_app; auto; [repeat constructor; auto|]. intros x Hx [<-|[]]; auto.
          * rewrite map_app, I2, app_length. simpl. rewrite seq_app. reflexivity.
          * apply in_or_app. simpl. auto.
          * intros s j Hin. apply in_app_or in Hin as [Hin|[Ex|[]]].
            -- destruct (I5 s j Hin) as (nd & Hnd & _). exists nd. rewrite nth_error_app1 by (eapply Hidx; eauto).
               split; auto. split; auto. tauto.
            -- inversion Ex; subst. exists []. rewrite nth_error_app2, Nat.sub_diag by lia. split; auto. split; auto.
               intros Hin. exfalso. apply Enone. apply (in_map fst) in Hin. auto.
        + intros s j Hin Hnin. apply in_app_or in Hin as [Hin|[Ex|[]]]; [tauto|]. inversion Ex; auto. }
    destruct HP as (nodes & refs & i & (P1 & P2 & P3 & P4 & P5 & P6) & P7 & ->).
    assert (Ec : ref_of refs cur = Some c) by (apply aget_NoDup; auto; apply list_eqb_eq).
    rewrite Ec. simpl. eexists. split; [reflexivity|]. simpl. split; [|repeat split; auto].
    assert (Hinj : forall s j, In (s, j) refs -> j = c -> s = cur).
    { intros s j Hin ->. assert (Hn : NoDup (map snd refs)) by (rewrite P4; apply seq_NoDup).
      apply P1 in Hc. clear -Hn Hin Hc. induction refs as [|[s' j'] l IH]; simpl in *; [tauto|]. inversion Hn; subst.
      destruct Hin as [E1|H1'], Hc as [E2|H2'].
      - congruence.
      - inversion E1; subst. exfalso. apply H1. apply (in_map snd) in H2'. auto.
      - inversion E2; subst. exfalso. apply H1. apply (in_map snd) in H1'. auto.
      - auto. }
    split; simpl; auto.
    - rewrite upd_nth_length. auto.
    - intros s j Hin. destruct (P2 s j Hin) as [Hin'|[-> _]]; eauto.
    - intros s Hin. apply in_app_or in Hin as [Hin|[<-|[]]]; eauto. destruct (I4 s Hin) as [j Hj]. eauto.
    - intros s j Hin. destruct (P6 s j Hin) as (nd & Hnd & Hold & Hnew).
      rewrite nth_error_upd_nth, Hnd. unfold snoc_at.
      assert (HL : Forall2 (link refs) (L s) nd \/ (~ In (s, j) (ds_ref st) /\ nd = [] /\ s = next)).
      { destruct (P2 s j Hin) as [Hin'|[-> Hge]].
        - left. destruct (I5 s j Hin') as (nd' & Hnd' & Hf). rewrite (Hold Hin') in Hnd'. inversion Hnd'; subst.
          eapply link_mono; eauto.
        - right. assert (~ In (next, j) (ds_ref st)) by (intros Hx; apply Hidx in Hx; lia). auto. }
      destruct HL as [HL|(Hnin & -> & ->)].
      + destruct (Nat.eqb_spec c j) as [<-|Hne].
        * assert (s = cur) as -> by (eapply Hinj; eauto). rewrite list_eqb_refl. simpl.
          eexists. split; [reflexivity|]. rewrite rset_last.
          -- apply Forall2_app; auto. constructor; auto. split; auto.
          -- intros y Hy. destruct (Forall2_In_r _ _ _ _ HL Hy) as (x & Hx & [Ex _]). destruct x as [rx sx], y as [ry sy]. simpl in Ex. subst. apply (Hlast (ry, sx) Hx).
        * exists nd. split; auto. destruct (list_eqb s cur) eqn:Es; auto. apply list_eqb_eq in Es; subst.
          exfalso. apply Hne. apply P1 in Hc. pose proof (aget_NoDup list_eqb list_eqb_eq _ _ _ P3 Hin). unfold ref_of in Ec. congruence.
      + destruct (P7 next j Hin Hnin) as [_ Hnone].
        assert (Hcn : c <> j).
        { intros <-. assert (next = cur) by (eapply Hinj; eauto). subst. apply (refs_get L st) in Hc; auto. congruence. }
        destruct (Nat.eqb_spec c j) as [->|_]; [congruence|]. exists []. split; auto.
        assert (Hneq : list_eqb next cur = false).
        { destruct (list_eqb next cur) eqn:Es; auto. apply list_eqb_eq in Es; subst. apply (refs_get L st) in Hc; auto. congruence. }
        rewrite Hneq, I7 by auto. constructor.
    - intros s Hs. unfold snoc_at. destruct (list_eqb s cur) eqn:Es.
      + apply list_eqb_eq in Es; subst. congruence.
      + apply I7. destruct (ref_of (ds_ref st) s) as [j|] eqn:Ej; auto. apply (refs_get L st) in Ej; auto. apply P1 in Ej.
        assert (ref_of refs s = Some j) by (apply aget_NoDup; auto; apply list_eqb_eq). congruence.
    - destruct I6 as (s & Hs & Hr). exists s. split; auto.
  Qed.

  Lemma dinv_ext L L' st : (forall s, L s = L' s) -> dinv L st -> dinv L' st.
  Proof.
    intros He [I1 I2 I3 I4 I5 I7 I6]. split; auto.
    - intros s i Hin. rewrite <- He. auto.
    - intros s Hs. rewrite <- He. auto.
  Qed.

  Definition app_at (cur : list nat) (l : list (crange * list nat)) (L : list nat -> list (crange * list nat)) (s : list nat) :=
    if list_eqb s cur then L s ++ l else L s.

  Lemma add_targets_ok l : forall L st cur c, dinv L st -> In (cur, c) (ds_ref st) ->
    (forall r s, In (r, s) l -> set_ok s) -> ranges_ok (L cur ++ l) ->
    exists st', foldM (add_target cur) l st = Ok st' /\ dinv (app_at cur l L) st' /\
      (forall x, In x (ds_ref st) -> In x (ds_ref st')) /\
      (forall s i, In (s, i) (ds_ref st') -> In (s, i) (ds_ref st) \/ (In s (map snd l) /\ length (ds_nodes st) <= i)) /\
      ds_q st' = ds_q st ++ map snd l /\ ds_done st' = ds_done st /\ length (ds_nodes st) <= length (ds_nodes st').
  Proof.
    induction l as [|[r s] l IH]; intros L st cur c Hi Hc Hs Hr; cbn [foldM map snd].
    - exists st. split; auto. split.
      + eapply dinv_ext; [|exact Hi]. intros s. unfold app_at. destruct (list_eqb s cur); auto. rewrite app_nil_r; auto.
      + rewrite app_nil_r. repeat split; auto.
    - assert (Hso : set_ok s) by (eapply Hs; simpl; eauto).
      apply ranges_ok_app_inv in Hr as Hr'. destruct Hr' as ([R1 R1'] & [R2 _] & R3).
      destruct (add_target_ok L st cur c r s Hi Hc Hso) as (st1 & E1 & H1 & M1 & N1 & Q1 & D1).
      { intros x Hx. rewrite Forall_forall in R1. specialize (R1 _ Hx). specialize (R3 x (r, s) Hx (or_introl eq_refl)). destruct x as [[xa xb] xv], r as [ra rb]. simpl in *. lia. }
      assert (Hlen : length (ds_nodes st) <= length (ds_nodes st1)).
      { destruct Hi as [_ I2 _ _ _ _ _]. destruct H1 as [J1 J2 _ _ _ _ _].
        assert (Hle : length (map snd (ds_ref st)) <= length (map snd (ds_ref st1))); [|rewrite I2, J2, !seq_length in Hle; auto].
        rewrite !map_length. apply NoDup_incl_length; [|exact M1].
        apply (NoDup_map_inv snd). rewrite I2. apply seq_NoDup. }
      rewrite E1. cbn [bind]. destruct (IH _ st1 cur c H1) as (st' & E2 & H2 & M2 & N2 & Q2 & D2 & L2); auto.
      + intros r' s' Hin. eapply Hs; simpl; eauto.
      + unfold snoc_at. rewrite list_eqb_refl, <- app_assoc. exact Hr.
      + exists st'. split; auto. split.
        { eapply dinv_ext; [|exact H2]. intros s'. unfold app_at, snoc_at. destruct (list_eqb s' cur); auto. rewrite <- app_assoc. reflexivity. }
        split; [auto|]. split.
        { intros s' i Hin. destruct (N2 s' i Hin) as [Hin'|[Hin' Hle]].
          - destruct (N1 s' i Hin') as [|[-> Hle]]; simpl; auto.
          - right. split; [simpl; auto|lia]. }
        rewrite Q2, Q1, D2, D1, <- app_assoc. repeat split; auto. lia.
  Qed.

  Definition Ld (st : dstate) (s : list nat) : list (crange * list nat) :=
    match ref_of (ds_ref st) s with Some i => if mem i (ds_done st) then trs s else [] | None => [] end.

  Record oinv (st : dstate) : Prop := {
    oi_inv : dinv (Ld st) st;
    oi_done : forall i, In i (ds_done st) -> i < length (ds_nodes st);
    oi_todo : forall s i, In (s, i) (ds_ref st) -> In i (ds_done st) \/ In s (ds_q st)
  }.

  (** all candidate sets *)
  Fixpoint subs (l : list nat) : list (list nat) :=
    match l with [] => [[]] | x :: l' => map (cons x) (subs l') ++ subs l' end.
  Lemma subs_sorted l s : sorted l -> sorted s -> incl s l -> In s (subs l).
  Proof.
    revert s; induction l as [|x l IH]; intros s Hl Hs Hi; simpl.
    - destruct s as [|y s]; auto. destruct (Hi y); simpl; auto.
    - inversion Hl as [|? ? Hl' Hx]; subst. apply in_or_app. rewrite Forall_forall in Hx.
      destruct s as [|y s].
      + right. apply IH; auto. intros z [].
      + inversion Hs as [|? ? Hs' Hy]; subst. rewrite Forall_forall in Hy.
        destruct (eq_dec x y) as [->|Hne].
        * left. apply in_map. apply IH; auto. intros z Hz. destruct (Hi z) as [->|]; simpl; auto.
          exfalso. apply (lt_irrefl z); auto.
        * right. apply IH; auto. intros z Hz. destruct (Hi z) as [->|]; auto. exfalso.
          destruct Hz as [->|Hz]; [congruence|]. destruct (Hi y) as [->|Hy']; simpl; auto.
          apply (lt_irrefl y). eapply lt_trans; eauto.
  Qed.
  Lemma sorted_seq a n : sorted (seq a n).
  Proof.
    revert a; induction n as [|n IH]; intros a; simpl; constructor; auto. apply IH.
    apply Forall_forall. intros x Hx. apply in_seq in Hx. apply Nat.compare_lt_iff. lia.
  Qed.

  Definition pending (st : dstate) (s : list nat) : bool :=
    match ref_of (ds_ref st) s with Some i => negb (mem i (ds_done st)) | None => true end.
  Definition mu (st : dstate) : nat := length (filter (pending st) (subs (seq 0 (length h)))).

  Lemma filter_lt {A} (f g : A -> bool) l x : (forall y, g y = true -> f y = true) -> In x l -> f x = true -> g x = false ->
    length (filter g l) < length (filter f l).
  Proof.
    intros Hgf. induction l as [|y l IH]; simpl; intros Hin Hf Hg; [tauto|].
    assert (Hle : length (filter g l) <= length (filter f l)).
    { clear -Hgf. induction l as [|y l IH]; simpl; auto. destruct (g y) eqn:E; [rewrite (Hgf _ E); simpl; lia|]. destruct (f y); simpl; lia. }
    destruct Hin as [->|Hin].
    - rewrite Hf, Hg. simpl. lia.
    - specialize (IH Hin Hf Hg). destruct (g y) eqn:E; [rewrite (Hgf _ E); simpl; lia|]. destruct (f y); simpl; lia.
  Qed.

  Lemma dfa_step_ok st : oinv st ->
    match dfa_step h st with
    | inl st' => oinv st' /\ (mu st' < mu st \/ (mu st' = mu st /\ length (ds_q st') < length (ds_q st)))
    | inr r => r = Ok st /\ ds_q st = []
    end.
  Proof.
    intros [Hi Hd Ht]. unfold dfa_step. destruct (ds_q st) as [|cur q] eqn:Eq; auto.
    destruct (di_q _ _ Hi cur) as [c Hc]; [rewrite Eq; simpl; auto|].
    assert (Ec : ref_of (ds_ref st) cur = Some c) by (apply (refs_get (Ld st)); auto). rewrite Ec.
    destruct (mem c (ds_done st)) eqn:Em.
    - split; [|right; simpl; split; [reflexivity|lia]]. destruct Hi as [I1 I2 I3 I4 I5 I7 I6]. split; simpl; auto.
      + split; simpl; auto. intros s Hs. apply I4. rewrite Eq. simpl; auto.
      + intros s i Hin. destruct (Ht s i Hin) as [|[<-|]]; auto. left. apply mem_In in Em.
        apply (refs_get (Ld st) st) in Hin; [|split; auto]. congruence.
    - set (st1 := mk_dstate (ds_nodes st) (ds_ref st) q (ins c (ds_done st))).
      assert (Hcs : set_ok cur) by (eapply di_sets; eauto).
      destruct (trs_ok cur Hcs) as (Et & Htr & _ & _).
      assert (Hi1 : dinv (Ld st) st1).
      { destruct Hi as [I1 I2 I3 I4 I5 I7 I6]. split; simpl; auto. intros s Hs. apply I4. rewrite Eq. simpl; auto. }
      assert (HLcur : Ld st cur = []) by (unfold Ld; rewrite Ec, Em; auto).
      destruct (add_targets_ok (trs cur) (Ld st) st1 cur c Hi1 Hc) as (st2 & E2 & H2 & M2 & N2 & Q2 & D2 & L2).
      { intros r s. apply trs_set_ok; auto. }
      { rewrite HLcur. exact Htr. }
      assert (Estep : (do m <- collect h cur; foldM (add_target cur) (split_by_end (align_by_begin m)) st1) = Ok st2).
      { unfold trans in Et. destruct (collect h cur) as [m| |]; simpl in *; try discriminate. inversion Et as [Ex]. rewrite Ex. exact E2. }
      rewrite Estep.
      assert (Hclt : c < length (ds_nodes st)).
      { apply (in_map snd) in Hc. rewrite (di_seq _ _ Hi) in Hc. apply in_seq in Hc. simpl in Hc. lia. }
      assert (Hr2 : forall s i, ref_of (ds_ref st) s = Some i -> ref_of (ds_ref st2) s = Some i).
      { intros s i Hs. apply (refs_get _ _ _ _ H2). apply M2. apply (refs_get _ _ _ _ Hi). auto. }
      assert (Hn2 : forall s i, ref_of (ds_ref st2) s = Some i -> ref_of (ds_ref st) s = None -> length (ds_nodes st) <= i).
      { intros s i Hs Hn. apply (refs_get _ _ _ _ H2) in Hs. destruct (N2 _ _ Hs) as [Hin|[_ Hle]]; auto.
        simpl in Hin. apply (refs_get _ _ _ _ Hi) in Hin. congruence. }
      assert (Hdone : forall i, mem i (ds_done st2) = true <-> i = c \/ In i (ds_done st)).
      { intros i. rewrite D2. simpl. rewrite mem_In, In_ins. tauto. }
      split.
      + split.
        * eapply dinv_ext; [|exact H2]. intros s. unfold app_at. destruct (list_eqb s cur) eqn:Es.
          -- apply list_eqb_eq in Es; subst s. rewrite HLcur. simpl. unfold Ld. rewrite (Hr2 _ _ Ec).
             rewrite (proj2 (Hdone c)) by auto. reflexivity.
          -- unfold Ld. destruct (ref_of (ds_ref st) s) as [i|] eqn:Er.
             ++ rewrite (Hr2 _ _ Er). assert (i <> c).
                { intros ->. apply (refs_get _ _ _ _ Hi) in Er. assert (s = cur) by (eapply refs_inj; eauto). subst. rewrite list_eqb_refl in Es. discriminate. }
                destruct (mem i (ds_done st)) eqn:E3.
                ** apply mem_In in E3. rewrite (proj2 (Hdone i)); auto.
                ** destruct (mem i (ds_done st2)) eqn:E4; auto. apply Hdone in E4 as [|E4]; [congruence|]. apply mem_In in E4. congruence.
             ++ destruct (ref_of (ds_ref st2) s) as [i|] eqn:Er2; auto. assert (Hge := Hn2 _ _ Er2 Er).
                destruct (mem i (ds_done st2)) eqn:E4; auto. apply Hdone in E4 as [->|E4]; [lia|]. apply Hd in E4. lia.
        * intros i Hin. apply mem_In, Hdone in Hin as [->|Hin]; simpl in L2; [lia|]. apply Hd in Hin. lia.
        * intros s i Hin. rewrite Q2. simpl. destruct (N2 s i Hin) as [Hin'|[Hin' _]].
          -- simpl in Hin'. destruct (Ht s i Hin') as [Hx|Hx].
             ++ left. apply mem_In, Hdone. auto.
             ++ destruct Hx as [<-|Hx]; [|right; apply in_or_app; auto].
                left. apply mem_In, Hdone. left. apply (refs_get _ _ _ _ Hi) in Hin'. congruence.
          -- right. apply in_or_app. auto.
      + left. unfold mu. apply filter_lt with (x := cur).
        * intros s. unfold pending. destruct (ref_of (ds_ref st) s) as [i|] eqn:Er; auto. rewrite (Hr2 _ _ Er).
          rewrite !negb_true_iff. intros Hm. destruct (mem i (ds_done st)) eqn:E3; auto. apply mem_In in E3.
          rewrite (proj2 (Hdone i)) in Hm; auto.
        * apply subs_sorted.
          -- apply sorted_seq.
          -- destruct Hcs as (_ & w & Hw & _); auto.
          -- intros p Hp. apply in_seq. pose proof (set_ok_lt _ _ Hcs Hp). lia.
        * unfold pending. rewrite Ec, Em. reflexivity.
        * unfold pending. rewrite (Hr2 _ _ Ec), (proj2 (Hdone c)); auto.
  Qed.

  (** The finished table *)
  Record dfinal (st : dstate) : Prop := {
    df_nodup : NoDup (map fst (ds_ref st));
    df_seq : map snd (ds_ref st) = seq 0 (length (ds_nodes st));
    df_sets : forall s i, In (s, i) (ds_ref st) -> set_ok s;
    df_nodes : forall s i, In (s, i) (ds_ref st) -> exists nd, nth_error (ds_nodes st) i = Some nd /\ Forall2 (link (ds_ref st)) (trs s) nd;
    df_begin : exists s, In (s, 0) (ds_ref st) /\ reaches [] s
  }.

  Theorem worklist_ok b : eps_rec h b0 = Ok b ->
    exists F st, dfinal st /\ forall fuel, F <= fuel -> loop (dfa_step h) fuel (mk_dstate [[]] [(b, 0)] [b] []) = Ok st.
  Proof.
    intros Eb. destruct (eps_rec_spec h Hcl b0 Hb0) as (b' & Eb' & Hs & Hp). rewrite Eb in Eb'. inversion Eb'; subst b'.
    assert (Hr : reaches [] b) by (split; auto).
    assert (Hbne : b <> []) by (intros ->; apply (proj2 (Hp b0)); constructor).
    destruct (loop_term (dfa_step h) oinv _ (fun r => exists st, r = Ok st /\ oinv st /\ ds_q st = []) (lex_wf mu (fun st => length (ds_q st)))) with (s := mk_dstate [[]] [(b, 0)] [b] []) as (F & r & (st & -> & Hi & Hq) & HF).
    - intros st Hi. pose proof (dfa_step_ok st Hi) as H. destruct (dfa_step h st) as [st'|r]; auto.
      destruct H as [-> Hq]. split; [discriminate|]. eauto.
    - split; simpl.
      + split; simpl; auto.
        * repeat constructor; auto.
        * intros s i [E|[]]. inversion E; subst. split; eauto.
        * intros s [<-|[]]. exists 0; auto.
        * intros s i [E|[]]. inversion E; subst. exists []. split; auto. unfold Ld. simpl. rewrite list_eqb_refl. constructor.
        * intros s Hn. unfold Ld. simpl. destruct (list_eqb s b); [discriminate|reflexivity].
        * exists b. auto.
      + tauto.
      + intros s i [E|[]]. inversion E; subst. auto.
    - exists F, st. split; auto. destruct Hi as [[I1 I2 I3 I4 I5 I7 I6] Hd Ht]. split; auto.
      intros s i Hin. destruct (I5 s i Hin) as (nd & Hnd & Hf). exists nd. split; auto.
      assert (EL : Ld st s = trs s); [|rewrite EL in Hf; auto]. unfold Ld.
      assert (Er : ref_of (ds_ref st) s = Some i) by (apply aget_NoDup; auto; apply list_eqb_eq). rewrite Er.
      destruct (Ht s i Hin) as [Hm|Hm]; [|rewrite Hq in Hm; destruct Hm]. apply mem_In in Hm. rewrite Hm. reflexivity.
  Qed.

  (** *** Runs of the finished table *)
  Lemma final_idx st s i : dfinal st -> In (s, i) (ds_ref st) -> i < length (ds_nodes st).
  Proof. intros [_ Hq _ _ _] Hin. apply (in_map snd) in Hin. rewrite Hq in Hin. apply in_seq in Hin. simpl in Hin. lia. Qed.
  Lemma final_set st i : dfinal st -> i < length (ds_nodes st) -> exists s, In (s, i) (ds_ref st).
  Proof.
    intros [_ Hq _ _ _] Hi. assert (Hin : In i (map snd (ds_ref st))) by (rewrite Hq; apply in_seq; lia).
    apply in_map_iff in Hin as ([s j] & <- & Hin). eauto.
  Qed.
  Lemma final_ranges st i nd : dfinal st -> nth_error (ds_nodes st) i = Some nd -> ranges_ok nd.
  Proof.
    intros Hf Hn. destruct (final_set st i Hf) as [s Hs]; [eapply nth_error_Some_lt; eauto|].
    destruct (df_nodes _ Hf s i Hs) as (nd' & Hn' & H2). rewrite Hn in Hn'. inversion Hn'; subst nd'.
    destruct (trs_ok s (df_sets _ Hf _ _ Hs)) as (_ & [R1 R2] & _ & _).
    clear -R1 R2 H2. split.
    - apply Forall_forall. intros y Hy. destruct (Forall2_In_r _ _ _ _ H2 Hy) as (x & Hx & [Ex _]).
      rewrite Forall_forall in R1. specialize (R1 _ Hx). destruct x, y; simpl in *; subst; auto.
    - induction H2 as [|x y l nd [Ex _] H2 IH]; [constructor|]. inversion R1; inversion R2 as [|? ? R3 R4]; subst. constructor; auto.
      apply Forall_forall. intros z Hz. destruct (Forall2_In_r _ _ _ _ H2 Hz) as (x' & Hx' & [Ex' _]).
      rewrite Forall_forall in R4. specialize (R4 _ Hx'). destruct x, y, x', z; simpl in *; subst; auto.
  Qed.

  Lemma final_next st s i c : dfinal st -> In (s, i) (ds_ref st) ->
    match dnext (ds_nodes st) i c with
    | Some j => exists r s', In (r, s') (trs s) /\ in_range c r /\ In (s', j) (ds_ref st)
    | None => forall q, ~ lcov (trs s) c q
    end.
  Proof.
    intros Hf Hs. destruct (df_nodes _ Hf s i Hs) as (nd & Hn & H2). unfold dnext. rewrite Hn.
    assert (Hr := final_ranges _ _ _ Hf Hn). destruct (lookup c nd) as [j|] eqn:El.
    - apply lookup_spec in El as (r & Hin & Hc); auto. destruct (Forall2_In_r _ _ _ _ H2 Hin) as ([r' s'] & Hx & [Ex Hx']).
      simpl in *; subst. eauto.
    - intros q (r & s' & Hin & Hc & Hq). destruct (Forall2_In_l _ _ _ _ H2 Hin) as ([r' j] & Hy & [Ex _]). simpl in *; subst.
      eapply (proj1 (lookup_None c nd Hr)); eauto.
  Qed.

  Theorem final_run st w : dfinal st ->
    match drun (ds_nodes st) 0 w with
    | Some i => exists s, In (s, i) (ds_ref st) /\ reaches w s
    | None => forall q, ~ path (hedge h) b0 w q
    end.
  Proof.
    intros Hf. induction w as [|c w IH] using rev_ind.
    - simpl. apply Hf.
    - rewrite drun_app. destruct (drun (ds_nodes st) 0 w) as [i|].
      + destruct IH as (s & Hs & Hr). simpl. pose proof (final_next st s i c Hf Hs) as Hn.
        assert (Hso := df_sets _ Hf _ _ Hs).
        destruct (dnext (ds_nodes st) i c) as [j|].
        * destruct Hn as (r & s' & Hin & Hc & Hj). exists s'. split; auto. eapply trs_target; eauto.
        * intros q Hp. apply path_snoc in Hp as (z & Hz & Hcs). apply Hr in Hz.
          apply (Hn q). apply (trs_ok s Hso). eauto.
      + intros q Hp. apply path_snoc in Hp as (z & Hz & _). eapply IH; eauto.
  Qed.

  (** every state is reachable *)
  Theorem final_reach st i : dfinal st -> i < length (ds_nodes st) -> exists w, drun (ds_nodes st) 0 w = Some i.
  Proof.
    intros Hf Hi. destruct (final_set st i Hf Hi) as [s Hs]. destruct (df_sets _ Hf _ _ Hs) as (Hne & w & Hw).
    exists w. pose proof (final_run st w Hf) as Hr. destruct (drun (ds_nodes st) 0 w) as [j|].
    - destruct Hr as (s' & Hs' & Hw'). f_equal. assert (s' = s) as ->.
      { apply sorted_ext; [apply Hw'|apply Hw|]. intros x. rewrite (proj2 Hw'), (proj2 Hw). tauto. }
      assert (E1 : aget list_eqb s (ds_ref st) = Some i) by (apply aget_NoDup; [apply list_eqb_eq|apply Hf|auto]).
      assert (E2 : aget list_eqb s (ds_ref st) = Some j) by (apply aget_NoDup; [apply list_eqb_eq|apply Hf|auto]).
      congruence.
    - exfalso. destruct s as [|x s]; [congruence|]. apply (Hr x). apply Hw. simpl; auto.
  Qed.
End Worklist.
