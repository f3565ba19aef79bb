(** The whole of minify. *)
From Verif Require Import Lib Hir NfaPath NfaModel NfaProofs DfaModel DfaEdges DfaProofs DfaTop MinModel MinProofs.

(** what one can observe of a state: is it stuck after [w], and which pattern is accepted *)
Definition obs (d : dfa) (i : nat) (w : word) : option (option nat) :=
  option_map (fun j => aget Nat.eqb j (d_end d)) (drun (d_nodes d) i w).

Section Min.
  Variable o : hash_oracle.
  Variable d : dfa.
  Hypothesis Ho : oracle_ok o.
  Hypothesis Hranges : forall i nd, nth_error (d_nodes d) i = Some nd -> ranges_ok nd.
  Hypothesis Htarget : forall i nd r j, nth_error (d_nodes d) i = Some nd -> In (r, j) nd -> j < length (d_nodes d).
  Hypothesis Hbegin : d_begin d < length (d_nodes d).
  Hypothesis Hkeys : forall i p, In (i, p) (d_end d) -> i < length (d_nodes d).
  Hypothesis Hnodup : NoDup (map fst (d_end d)).

  Let nodes := d_nodes d.
  Let N0 := length nodes.

  Definition compact (g : list nat) (cnt : nat) : Prop :=
    length g = N0 /\ (forall n, n < N0 -> gval g n < cnt) /\ (forall k, k < cnt -> exists n, n < N0 /\ gval g n = k).

  Lemma compact_sets g cnt : compact g cnt -> length (group_sets g) = cnt /\ Forall (fun s => nonempty s = true) (group_sets g).
  Proof.
    intros (H1 & H2 & H3). assert (Hne : g <> []) by (intros ->; simpl in H1; unfold N0, nodes in H1; lia).
    assert (Hlen : length (group_sets g) = cnt).
    { destruct (group_sets_length g Hne) as (n & Hn & E). rewrite <- E. assert (gval g n < cnt) by (apply H2; lia).
      destruct (Nat.eq_dec (S (gval g n)) cnt) as [|Hd]; auto. destruct (H3 (S (gval g n))) as (m & Hm & Em); [lia|].
      rewrite <- H1 in Hm. pose proof (group_sets_lt g m Hm). lia. }
    split; auto. apply Forall_forall. intros s Hs. apply In_nth_error in Hs as [k Hk].
    destruct (H3 k) as (n & Hn & En). { rewrite <- Hlen. eapply nth_error_Some_lt; eauto. }
    assert (Hin : In n s). { eapply In_group_sets; eauto. split; auto; lia. } destruct s; [destruct Hin|reflexivity].
  Qed.

  Lemma filter_all {A} (f : A -> bool) l : Forall (fun x => f x = true) l -> filter f l = l.
  Proof. induction 1 as [|x l Hx Hl IH]; simpl; auto. rewrite Hx, IH. reflexivity. Qed.

  Lemma iter_ok it g new : length g = N0 -> length new = N0 ->
    exists new' mx upd cnt, foldM (group_step o it nodes g) (combine (seq 0 (length (group_sets g))) (group_sets g)) (new, 0, false) = Ok (new', mx, upd) /\
      compact new' cnt /\ cnt <= N0 /\
      (forall i j, i < N0 -> j < N0 -> gval new' i = gval new' j -> gval g i = gval g j) /\
      (upd = false -> forall i j, i < N0 -> j < N0 -> gval g i = gval g j -> gval new' i = gval new' j) /\
      (upd = true -> ngroups g < cnt) /\
      (honest o -> forall i j, i < N0 -> j < N0 -> (gval new' i = gval new' j <-> gval g i = gval g j /\ key nodes g i = key nodes g j)).
  Proof.
    intros Hg Hnew.
    destruct (groups_fold o nodes Ho Hranges Htarget it g Hg (group_sets g) 0) with (new := new) (mx := 0) (upd := false)
      as (C & upd & E & A1 & A2 & A3 & A4 & A5 & A6 & A7 & A8); auto.
    { intros k s Hk. split; [eapply group_sets_NoDup; eauto|]. intros n. rewrite (In_group_sets _ _ _ Hk). rewrite Hg. simpl. tauto. }
    assert (Hall : forall n, In n (concat C) <-> n < N0).
    { intros n. rewrite A2. split; [tauto|]. intros Hn. split; auto. split; [lia|]. simpl. apply group_sets_lt. lia. }
    destruct (label_ok C new 0 A1) as (L1 & L2 & L3 & L4); [intros n Hn; apply Hall in Hn; lia|].
    destruct (fold_left label_one C (new, 0)) as [new' mx]. cbn [fst snd] in *.
    assert (Hval : forall k s n, nth_error C k = Some s -> In n s -> n < N0 -> gval new' n = k).
    { intros k s n Hk Hn Hlt. pose proof (L3 k s n Hk Hn) as El. rewrite nth_gval in El by lia. inversion El; auto. }
    assert (Hcls : forall n, n < N0 -> exists k s, nth_error C k = Some s /\ In n s /\ gval new' n = k).
    { intros n Hn. apply Hall in Hn as Hc. apply in_concat in Hc as (s & Hs & Hns). apply In_nth_error in Hs as [k Hk]. exists k, s. eauto. }
    assert (Hsame : forall i j, i < N0 -> j < N0 -> gval new' i = gval new' j -> exists s, In s C /\ In i s /\ In j s).
    { intros i j Hi Hj Eij. destruct (Hcls i Hi) as (k & s & Hk & His & Ek). destruct (Hcls j Hj) as (k' & s' & Hk' & Hjs & Ek').
      assert (Ekk : k' = k) by congruence. rewrite Ekk in Hk'. rewrite Hk in Hk'. inversion Hk'; subst s'. exists s. split; auto. eapply nth_error_In; eauto. }
    assert (Hsame2 : forall s i j, In s C -> In i s -> In j s -> i < N0 -> j < N0 -> gval new' i = gval new' j).
    { intros s i j Hs Hi Hj Hi' Hj'. apply In_nth_error in Hs as [k Hk]. rewrite (Hval _ _ _ Hk Hi Hi'), (Hval _ _ _ Hk Hj Hj'). reflexivity. }
    exists new', mx, upd, (length C). split; auto. split.
    { split; [lia|]. split.
      - intros n Hn. destruct (Hcls n Hn) as (k & s & Hk & _ & ->). eapply nth_error_Some_lt; eauto.
      - intros k Hk. destruct (nth_error C k) as [s|] eqn:Es; [|apply nth_error_None in Es; lia].
        rewrite Forall_forall in A3. pose proof (A3 s (nth_error_In _ _ Es)) as Hs. destruct s as [|n s]; [congruence|].
        assert (Hn : n < N0) by (apply Hall, in_concat; exists (n :: s); split; [eapply nth_error_In; eauto|simpl; auto]).
        exists n. split; auto. eapply Hval; eauto. simpl; auto. }
    split.
    { assert (Hl : length (concat C) <= N0).
      { rewrite <- (seq_length N0 0). apply NoDup_incl_length; auto. intros n Hn. apply in_seq. apply Hall in Hn. lia. }
      assert (Hc : length C <= length (concat C)).
      { clear -A3. induction A3 as [|s C Hs HC IH]; simpl; auto. rewrite app_length. destruct s; [congruence|simpl; lia]. }
      lia. }
    split; [intros i j Hi Hj Eij; destruct (Hsame i j Hi Hj Eij) as (s & Hs & Hi' & Hj'); eauto|].
    split.
    { intros Eu i j Hi Hj Eij. destruct (A6 Eu) as (_ & _ & U). destruct (Hcls i Hi) as (k & s & Hk & His & _).
      apply nth_error_In in Hk. apply (Hsame2 s i j); auto. apply (U s i j); auto. }
    split; [intros Eu; destruct (A7 Eu) as [|U]; [discriminate|auto]|].
    intros Hh i j Hi Hj. split.
    - intros Eij. destruct (Hsame i j Hi Hj Eij) as (s & Hs & Hi' & Hj'). apply (A8 Hh s i j Hs Hi') in Hj'. tauto.
    - intros [E1 E2]. destruct (Hcls i Hi) as (k & s & Hk & His & _). apply nth_error_In in Hk.
      apply (Hsame2 s i j); auto. apply (A8 Hh s i j Hk His). auto.
  Qed.

  Definition same_end (i j : nat) : Prop := aget Nat.eqb i (d_end d) = aget Nat.eqb j (d_end d).
  Definition differ (i j : nat) : Prop := exists w, obs d i w <> obs d j w.

  Record minv (st : mstate) : Prop := {
    mi_g : length (ms_g st) = N0;
    mi_new : length (ms_new st) = N0;
    mi_end : forall i j, i < N0 -> j < N0 -> gval (ms_g st) i = gval (ms_g st) j -> same_end i j;
    mi_dif : honest o -> forall i j, i < N0 -> j < N0 -> gval (ms_g st) i <> gval (ms_g st) j -> differ i j;
    mi_cnt : ngroups (ms_g st) <= N0
  }.

  (** the final partition *)
  Record mfinal (g : list nat) (cnt : nat) : Prop := {
    mf_compact : compact g cnt;
    mf_end : forall i j, i < N0 -> j < N0 -> gval g i = gval g j -> same_end i j;
    mf_next : honest o -> forall i j, i < N0 -> j < N0 -> gval g i = gval g j -> forall c, gnext nodes g i c = gnext nodes g j c;
    mf_dif : honest o -> forall i j, i < N0 -> j < N0 -> gval g i <> gval g j -> differ i j
  }.

  Lemma dnext_lt i c j : dnext nodes i c = Some j -> j < N0.
  Proof.
    unfold dnext. destruct (nth_error nodes i) as [nd|] eqn:E; [|discriminate]. intros El.
    apply lookup_spec in El as (r & Hin & _); [|eapply Hranges; eauto]. eapply Htarget; eauto.
  Qed.

  Lemma key_differ g i j : honest o -> length g = N0 -> i < N0 -> j < N0 ->
    (forall a b, a < N0 -> b < N0 -> gval g a <> gval g b -> differ a b) ->
    key nodes g i <> key nodes g j -> differ i j.
  Proof.
    intros Hh Hg Hi Hj Hd Hk.
    destruct (key_ok nodes Hranges Htarget g i Hg Hi) as (_ & _ & _ & C1 & K1 & _).
    destruct (key_ok nodes Hranges Htarget g j Hg Hj) as (_ & _ & _ & C2 & K2 & _).
    destruct (canonical_diff _ _ C1 C2) as [|[c Hc]]; [congruence|]. rewrite K1, K2 in Hc. unfold gnext in Hc.
    destruct (dnext nodes i c) as [a|] eqn:Ea, (dnext nodes j c) as [b|] eqn:Eb; simpl in Hc.
    - destruct (Hd a b) as [w Hw]; [eapply dnext_lt; eauto|eapply dnext_lt; eauto|congruence|].
      exists (c :: w). unfold obs in *. simpl. fold nodes. rewrite Ea, Eb. auto.
    - exists [c]. unfold obs. simpl. fold nodes. rewrite Ea, Eb. simpl. discriminate.
    - exists [c]. unfold obs. simpl. fold nodes. rewrite Ea, Eb. simpl. discriminate.
    - congruence.
  Qed.

  Lemma key_next g i j : length g = N0 -> i < N0 -> j < N0 -> key nodes g i = key nodes g j -> forall c, gnext nodes g i c = gnext nodes g j c.
  Proof.
    intros Hg Hi Hj E c.
    destruct (key_ok nodes Hranges Htarget g i Hg Hi) as (_ & _ & _ & C1 & K1 & _).
    destruct (key_ok nodes Hranges Htarget g j Hg Hj) as (_ & _ & _ & C2 & K2 & _).
    rewrite <- K1, <- K2, E. reflexivity.
  Qed.

  Lemma min_loop_ok : exists g cnt, loop (min_step o nodes) (S N0) (mk_mstate 0 (init_groups d) (init_groups d)) = Ok g /\ mfinal g cnt.
  Proof.
    assert (Hlen : length (init_groups d) = N0) by (unfold init_groups; rewrite map_length, seq_length; reflexivity).
    assert (Hinit : forall i, i < N0 -> gval (init_groups d) i = match aget Nat.eqb i (d_end d) with Some p => S p | None => 0 end).
    { intros i Hi. assert (E : nth_error (init_groups d) i = Some (match aget Nat.eqb i (d_end d) with Some p => S p | None => 0 end)).
      { unfold init_groups. rewrite nth_error_map. rewrite (nth_error_nth' _ 0) by (rewrite seq_length; auto). rewrite seq_nth by auto. reflexivity. }
      rewrite nth_gval in E by lia. congruence. }
    apply (loop_bound (min_step o nodes) minv (fun st => N0 - ngroups (ms_g st)) (fun r => exists g cnt, r = Ok g /\ mfinal g cnt)).
    - intros st [I1 I2 I3 I4 I5]. unfold min_step.
      destruct (iter_ok (ms_it st) (ms_g st) (ms_new st) I1 I2) as (new' & mx & upd & cnt & E & Hc & Hle & H1 & H2 & H3 & H4).
      rewrite E. cbn match. destruct upd.
      + assert (Hn : ngroups new' = cnt).
        { destruct (compact_sets _ _ Hc) as [S1 S2]. unfold ngroups. rewrite filter_all; auto. }
        split; [|simpl; specialize (H3 eq_refl); lia]. split; simpl; auto.
        * apply Hc.
        * intros Hh i j Hi Hj Hne. destruct (Nat.eq_dec (gval (ms_g st) i) (gval (ms_g st) j)) as [Eg|Eg]; [|apply I4; auto].
          apply (key_differ (ms_g st)); auto. intros Ek. apply Hne. apply H4; auto.
        * lia.
      + exists new', cnt. split; auto. specialize (H2 eq_refl). split; auto.
        * intros Hh i j Hi Hj Eij c. assert (Ek : forall c, gnext nodes (ms_g st) i c = gnext nodes (ms_g st) j c).
          { apply key_next; auto. apply H4; auto. }
          specialize (Ek c). unfold gnext in *. destruct (dnext nodes i c) as [a|] eqn:Ea, (dnext nodes j c) as [b|] eqn:Eb; simpl in *; try congruence.
          f_equal. apply H2; [eapply dnext_lt; eauto|eapply dnext_lt; eauto|congruence].
    - split; simpl; auto.
      + intros i j Hi Hj. rewrite !Hinit by auto. unfold same_end. destruct (aget Nat.eqb i (d_end d)), (aget Nat.eqb j (d_end d)); congruence.
      + intros Hh i j Hi Hj. rewrite !Hinit by auto. intros Hne. exists []. unfold obs. simpl. intros E. inversion E as [E']. rewrite E' in Hne. congruence.
      + unfold ngroups. set (l := group_sets (init_groups d)).
        assert (G : forall l (f : nat -> nat), (forall k s, nth_error l k = Some s -> forall n, In n s -> n < N0 /\ f n = k) -> length (filter nonempty l) <= N0).
        { clear. intros l f Hl.
          assert (H : exists r, length r = length (filter nonempty l) /\ NoDup (map f r) /\ (forall n, In n r -> n < N0 /\ f n < length l)).
          { revert Hl. induction l as [|s l IH] using rev_ind; intros Hl.
            - exists []. simpl. split; auto. split; [constructor|]. intros n [].
            - destruct IH as (r & R1 & R2 & R3).
              { intros k s' Hk. apply Hl. rewrite nth_error_app1; auto. eapply nth_error_Some_lt; eauto. }
              rewrite filter_app, app_length. simpl filter. destruct s as [|n s]; cbn [nonempty].
              + exists r. simpl. rewrite app_length. split; [lia|]. split; auto. intros n Hn. apply R3 in Hn. lia.
              + assert (Hn : n < N0 /\ f n = length l).
                { apply (Hl (length l) (n :: s)); [|simpl; auto]. rewrite nth_error_app2 by lia. rewrite Nat.sub_diag. reflexivity. }
                exists (n :: r). simpl. rewrite app_length. simpl. split; [lia|]. split.
                * constructor; auto. intros Hin. apply in_map_iff in Hin as (m & Em & Hm). apply R3 in Hm. lia.
                * intros m [<-|Hm]; [lia|]. apply R3 in Hm. lia. }
          destruct H as (r & R1 & R2 & R3). rewrite <- R1. rewrite <- (seq_length N0 0). apply NoDup_incl_length.
          - apply NoDup_map_inv in R2; auto.
          - intros n Hn. apply in_seq. apply R3 in Hn. lia. }
        apply (G l (gval (init_groups d))). intros k s Hk n Hn. apply (In_group_sets _ _ _ Hk) in Hn. lia.
    - simpl. unfold N0. lia.
  Qed.

  Theorem minify_ok : exists d' (f : nat -> nat),
    minify o d = Ok d' /\
    (* the tables are sound *)
    (forall i nd, nth_error (d_nodes d') i = Some nd -> ranges_ok nd) /\
    (forall i nd r j, nth_error (d_nodes d') i = Some nd -> In (r, j) nd -> j < length (d_nodes d')) /\
    (* f maps states onto states, start to start *)
    d_begin d' = f (d_begin d) /\
    (forall i, i < N0 -> f i < length (d_nodes d')) /\
    (forall k, k < length (d_nodes d') -> exists i, i < N0 /\ f i = k) /\
    (* accepting states correspond *)
    (forall i, i < N0 -> aget Nat.eqb (f i) (d_end d') = aget Nat.eqb i (d_end d)) /\
    NoDup (map fst (d_end d')) /\ (forall k p, In (k, p) (d_end d') -> exists i, i < N0 /\ f i = k /\ In (i, p) (d_end d)) /\
    (* with honest hash tables: transitions correspond, and merged = indistinguishable *)
    (honest o -> (forall i c, i < N0 -> dnext (d_nodes d') (f i) c = option_map f (dnext nodes i c)) /\
                 (forall i j, i < N0 -> j < N0 -> f i <> f j -> differ i j)).
  Proof.
    destruct min_loop_ok as (g & cnt & El & [Hc He Hn Hd]).
    destruct (compact_sets _ _ Hc) as [Hlen Hne]. pose proof Hc as (G1 & G2 & G3).
    unfold minify. fold nodes. fold N0. rewrite El. cbn [bind].
    (* nodes *)
    assert (Hnode : forall k s, nth_error (group_sets g) k = Some s ->
      exists r nd, r < N0 /\ gval g r = k /\ nth_error nodes r = Some nd /\ min_node o nodes g (length (group_sets g)) (k, s) = Ok (key nodes g r)).
    { intros k s Hk. unfold min_node. cbn [fst snd].
      assert (Hs : nonempty s = true) by (rewrite Forall_forall in Hne; apply Hne; eapply nth_error_In; eauto).
      pose proof (oo_rep o Ho k s) as Hp. destruct (o_rep o k s) as [|r l] eqn:Er.
      { apply Permutation_nil in Hp. subst s. discriminate. }
      assert (Hr : In r s) by (eapply Permutation_in; [exact Hp|simpl; auto]). apply (In_group_sets _ _ _ Hk) in Hr as [Hr1 Hr2].
      destruct (key_ok nodes Hranges Htarget g r G1) as (nd & End & Ek & _ & _ & Kv); [lia|].
      exists r, nd. split; [lia|]. split; auto. split; auto. cbn [hd_error of_opt bind]. rewrite End. cbn [of_opt bind]. rewrite Ek. cbn [bind].
      revert Kv. generalize (key nodes g r) as k'. induction k' as [|[cr v] k' IH]; intros Kv; cbn [mapM]; auto.
      destruct (Kv cr v) as (j & Hj & <-); [simpl; auto|]. cbn [fst snd].
      rewrite (proj2 (Nat.ltb_lt _ _)) by (rewrite Hlen; apply G2; auto). cbn [bind]. rewrite IH; [reflexivity|].
      intros r' v Hin. apply (Kv r'). simpl; auto. }
    assert (Hmap : exists nodes', mapM (min_node o nodes g (length (group_sets g))) (combine (seq 0 (length (group_sets g))) (group_sets g)) = Ok nodes' /\
       length nodes' = cnt /\ forall k nd', nth_error nodes' k = Some nd' -> exists r, r < N0 /\ gval g r = k /\ nd' = key nodes g r).
    { assert (G : forall sets a, (forall k s, nth_error sets k = Some s -> exists r nd, r < N0 /\ gval g r = a + k /\ nth_error nodes r = Some nd /\
                 min_node o nodes g (length (group_sets g)) (a + k, s) = Ok (key nodes g r)) ->
        exists nodes', mapM (min_node o nodes g (length (group_sets g))) (combine (seq a (length sets)) sets) = Ok nodes' /\
         length nodes' = length sets /\ forall k nd', nth_error nodes' k = Some nd' -> exists r, r < N0 /\ gval g r = a + k /\ nd' = key nodes g r).
      { induction sets as [|s sets IH]; intros a Hs.
        - exists []. simpl. split; auto. split; auto. intros [|k]; discriminate.
        - cbn [length seq combine mapM]. destruct (Hs 0 s eq_refl) as (r & nd & R1 & R2 & _ & R3). rewrite Nat.add_0_r in R2, R3. rewrite R3. cbn [bind].
          destruct (IH (S a)) as (ns & E1 & E2 & E3).
          { intros k s' Hk. destruct (Hs (S k) s' Hk) as (r' & nd' & R). replace (S a + k) with (a + S k) by lia. exists r', nd'. auto. }
          rewrite E1. cbn [bind]. exists (key nodes g r :: ns). split; auto. split; [simpl; lia|].
          intros [|k] nd' E; simpl in E.
          + inversion E; subst. exists r. rewrite Nat.add_0_r. auto.
          + destruct (E3 k nd' E) as (r' & H1 & H2 & H3). exists r'. split; auto. split; auto. lia. }
      destruct (G (group_sets g) 0 Hnode) as (ns & E1 & E2 & E3). exists ns. split; auto. split; [lia|auto]. }
    destruct Hmap as (nodes' & Em & Hlen' & Hnodes'). rewrite Em. cbn [bind].
    assert (Href : forall n, n < N0 -> new_ref g (length (group_sets g)) n = Ok (gval g n)).
    { intros n Hnn. unfold new_ref. rewrite nth_gval by lia. cbn [of_opt bind]. rewrite (proj2 (Nat.ltb_lt _ _)); auto. rewrite Hlen. apply G2; auto. }
    rewrite (Href (d_begin d)) by auto. cbn [bind].
    (* accepting states *)
    assert (Hend : forall l, (forall i p, In (i, p) l -> i < N0 /\ aget Nat.eqb i (d_end d) = Some p) ->
      exists en, foldM (fun en kv => do k <- new_ref g (length (group_sets g)) (fst kv); Ok (aset Nat.eqb k (snd kv) en)) l [] = Ok en /\
        NoDup (map fst en) /\ (forall k p, aget Nat.eqb k en = Some p <-> exists i, In (i, p) l /\ gval g i = k)).
    { induction l as [|[i p] l IH] using rev_ind; intros Hl.
      - exists []. simpl. split; auto. split; [constructor|]. intros k p. split; [discriminate|intros (i & [] & _)].
      - destruct IH as (en & E & En & Ev). { intros i' p' Hin. apply Hl, in_or_app; auto. }
        destruct (Hl i p) as [Hi Hp]; [apply in_or_app; simpl; auto|].
        rewrite foldM_app, E. cbn [bind foldM fst snd]. rewrite (Href i Hi). cbn [bind].
        exists (aset Nat.eqb (gval g i) p en). split; auto. split; [apply aset_NoDup; auto; apply Nat.eqb_eq|].
        intros k p'. rewrite aget_aset by apply Nat.eqb_eq. destruct (Nat.eqb_spec k (gval g i)) as [->|Hk].
        + split.
          * intros Ex; inversion Ex; subst. exists i. split; auto. apply in_or_app; simpl; auto.
          * intros (i' & Hin & Eg). apply Hl in Hin as [Hi' Hp']. assert (Hse := He i' i Hi' Hi Eg). unfold same_end in Hse. congruence.
        + rewrite Ev. split; intros (i' & Hin & Eg); exists i'; (split; [|auto]).
          * apply in_or_app; auto.
          * apply in_app_or in Hin as [Hin|[Ex|[]]]; auto. inversion Ex; subst. congruence. }
    destruct (Hend (d_end d)) as (en & Een & Enn & Env).
    { intros i p Hin. split; [eapply Hkeys; eauto|]. apply aget_NoDup; auto. apply Nat.eqb_eq. }
    rewrite Een. cbn [bind].
    exists (mk_dfa nodes' (gval g (d_begin d)) en), (gval g). cbn [d_nodes d_begin d_end].
    assert (Hend_eq : forall i, i < N0 -> aget Nat.eqb (gval g i) en = aget Nat.eqb i (d_end d)).
    { intros i Hi. destruct (aget Nat.eqb i (d_end d)) as [p|] eqn:Ei.
      - apply Env. exists i. split; auto. apply aget_In in Ei; auto. apply Nat.eqb_eq.
      - destruct (aget Nat.eqb (gval g i) en) as [p|] eqn:Ex; auto. apply Env in Ex as (j & Hj & Ej).
        assert (Hj0 : j < N0) by (eapply Hkeys; eauto). apply (aget_NoDup Nat.eqb Nat.eqb_eq) in Hj; auto.
        assert (Hse := He j i Hj0 Hi Ej). unfold same_end in Hse. congruence. }
    repeat split; auto.
    - destruct (Hnodes' _ _ H) as (r & Hr & _ & ->). destruct (key_ok nodes Hranges Htarget g r G1 Hr) as (_ & _ & _ & [[K _] _] & _). auto.
    - destruct (Hnodes' _ _ H) as (r & Hr & _ & ->). destruct (key_ok nodes Hranges Htarget g r G1 Hr) as (_ & _ & _ & [[_ K] _] & _). auto.
    - intros i nd r j Hnd Hin. destruct (Hnodes' _ _ Hnd) as (r' & Hr & _ & ->).
      destruct (key_ok nodes Hranges Htarget g r' G1 Hr) as (_ & _ & _ & _ & _ & K). destruct (K _ _ Hin) as (j' & Hj' & <-). rewrite Hlen'. apply G2; auto.
    - intros i Hi. rewrite Hlen'. apply G2; auto.
    - intros k Hk. rewrite Hlen' in Hk. apply G3; auto.
    - intros k p Hin. apply (aget_NoDup Nat.eqb Nat.eqb_eq) in Hin; auto. apply Env in Hin as (i & Hi & E). exists i. split; [eapply Hkeys; eauto|auto].
    - intros i c Hi. unfold dnext at 1. destruct (nth_error nodes' (gval g i)) as [nd'|] eqn:End.
      + destruct (Hnodes' _ _ End) as (r & Hr & Er & ->). destruct (key_ok nodes Hranges Htarget g r G1 Hr) as (_ & _ & _ & _ & K & _).
        rewrite K. apply Hn; auto.
      + apply nth_error_None in End. rewrite Hlen' in End. pose proof (G2 i Hi). lia.
  Qed.
End Min.

(** *** Consequences for the automata built from patterns *)
Lemma drun_lt (nodes : list dnode) : (forall i nd, nth_error nodes i = Some nd -> ranges_ok nd) ->
  (forall i nd r j, nth_error nodes i = Some nd -> In (r, j) nd -> j < length nodes) ->
  forall w i j, i < length nodes -> drun nodes i w = Some j -> j < length nodes.
Proof.
  intros Hr Ht. induction w as [|c w IH]; simpl; intros i j Hi E; [congruence|].
  destruct (dnext nodes i c) as [k|] eqn:Ek; [|discriminate]. apply (IH k); auto.
  unfold dnext in Ek. destruct (nth_error nodes i) as [nd|] eqn:En; [|discriminate].
  apply lookup_spec in Ek as (r & Hin & _); [|eapply Hr; eauto]. eapply Ht; eauto.
Qed.

(** any two different states of [d] are told apart by some word *)
Definition minimal (d : dfa) : Prop :=
  forall i j, i < length (d_nodes d) -> j < length (d_nodes d) -> i <> j -> exists w, obs d i w <> obs d j w.

Theorem minify_good o n M d : oracle_ok o -> honest o -> dfa_good n M d ->
  exists d', minify o d = Ok d' /\ dfa_good n M d' /\ minimal d' /\
    forall w, obs d' (d_begin d') w = obs d (d_begin d) w.
Proof.
  intros Ho Hh [G1 G2 G3 G4 G5 G6 G7 G8].
  destruct (minify_ok o d Ho G1 G2 G3 (fun i p H => proj1 (G7 i p H)) G8) as (d' & f & E & A1 & A2 & A3 & A4 & A5 & A6 & A7 & A8 & A9).
  destruct (A9 Hh) as [B1 B2]. exists d'. split; auto.
  assert (Hrun : forall w i, i < length (d_nodes d) -> drun (d_nodes d') (f i) w = option_map f (drun (d_nodes d) i w)).
  { induction w as [|c w IH]; simpl; intros i Hi; auto. rewrite B1 by auto.
    destruct (dnext (d_nodes d) i c) as [j|] eqn:Ej; simpl; auto. apply IH.
    apply (drun_lt (d_nodes d) G1 G2 [c] i j Hi). simpl. rewrite Ej. reflexivity. }
  assert (Hobs : forall w i, i < length (d_nodes d) -> obs d' (f i) w = obs d i w).
  { intros w i Hi. unfold obs. rewrite Hrun by auto. destruct (drun (d_nodes d) i w) as [j|] eqn:Ej; simpl; auto.
    f_equal. apply A6. eapply drun_lt; eauto. }
  split; [|split].
  - split; auto.
    + rewrite A3. auto.
    + intros k Hk. destruct (A5 k Hk) as (i & Hi & <-). destruct (G4 i Hi) as [w Hw]. exists w. rewrite A3, Hrun, Hw by auto. reflexivity.
    + intros w k. rewrite A3, Hrun by auto. destruct (drun (d_nodes d) (d_begin d) w) as [i|] eqn:Ei; [|discriminate].
      simpl. intros Ek p. inversion Ek; subst k. rewrite A6 by (eapply drun_lt; eauto). eapply G5; eauto.
    + intros w. rewrite A3, Hrun by auto. destruct (drun (d_nodes d) (d_begin d) w) as [i|] eqn:Ei; [discriminate|]. intros _. auto.
    + intros k p Hin. destruct (A8 k p Hin) as (i & Hi & <- & Hin'). split; auto. eapply G7; eauto.
  - intros a b Ha Hb Hab. destruct (A5 a Ha) as (i & Hi & <-), (A5 b Hb) as (j & Hj & <-).
    destruct (B2 i j Hi Hj Hab) as [w Hw]. exists w. rewrite !Hobs by auto. auto.
  - intros w. rewrite A3. apply Hobs; auto.
Qed.
