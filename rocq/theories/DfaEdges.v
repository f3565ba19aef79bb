(** Correctness of the pieces of the subset construction: epsilon closure, collection of the
    outgoing ranges, alignment by starts and splitting by ends. *)
From Verif Require Import Lib Hir NfaPath NfaModel NfaProofs DfaModel.

(** *** Sums *)
Lemma list_sum_drop (f g : nat -> nat) l n : NoDup l -> In n l -> (forall i, i <> n -> g i = f i) ->
  list_sum (map g l) + f n = list_sum (map f l) + g n.
Proof.
  induction l as [|x l IH]; simpl; intros Hn Hin He; [tauto|]. inversion Hn; subst.
  destruct (Nat.eq_dec x n) as [->|Hne].
  - assert (E : map g l = map f l) by (apply map_ext_in; intros a Ha; apply He; congruence). rewrite E. lia.
  - destruct Hin as [|Hin]; [congruence|]. specialize (IH H2 Hin He). rewrite (He x Hne). lia.
Qed.

(** *** Epsilon closure *)
Section Eps.
  Variable h : list nnode.
  Hypothesis Hcl : closed (hedge h) (fun p => p < length h).

  Definition outdeg (i : nat) : nat := match nth_error h i with Some n => length (n_eps n) | None => 0 end.
  Definition eps_rem (set : list nat) : nat := list_sum (map (fun i => if mem i set then 0 else outdeg i) (seq 0 (length h))).

  Lemma eps_rem_ins n set : n < length h -> mem n set = false -> eps_rem (ins n set) + outdeg n = eps_rem set.
  Proof.
    intros Hn Hm. unfold eps_rem.
    assert (H := list_sum_drop (fun i => if mem i set then 0 else outdeg i) (fun i => if mem i (ins n set) then 0 else outdeg i) (seq 0 (length h)) n).
    simpl in H. rewrite Hm in H.
    assert (E : mem n (ins n set) = true) by (apply mem_In, In_ins; auto). rewrite E in H.
    rewrite H; [lia|apply seq_NoDup|apply in_seq; lia|].
    intros i Hi. assert (E2 : mem i (ins n set) = mem i set); [|rewrite E2; auto].
    destruct (mem i set) eqn:E3.
    - apply mem_In. apply mem_In in E3. apply In_ins; auto.
    - apply mem_nIn. apply mem_nIn in E3. rewrite In_ins. intros [->|]; congruence.
  Qed.

  Lemma eps_rem_nil : eps_rem [] = list_sum (map (fun n => length (n_eps n)) h).
  Proof.
    unfold eps_rem. f_equal. unfold outdeg. simpl. clear Hcl.
    induction h as [|a l IH] using rev_ind; auto.
    rewrite app_length. simpl. rewrite seq_app, !map_app. simpl. f_equal.
    - rewrite <- IH. apply map_ext_in. intros i Hi. apply in_seq in Hi. rewrite nth_error_app1 by lia. reflexivity.
    - rewrite nth_error_app2, Nat.sub_diag by lia. reflexivity.
  Qed.

  Record eps_inv (n : nat) (s : list nat * list nat) : Prop := {
    ei_sorted : sorted (snd s);
    ei_path : forall x, In x (fst s) \/ In x (snd s) -> path (hedge h) n [] x;
    ei_closed : forall x y, In x (snd s) -> hedge h x None y -> In y (fst s) \/ In y (snd s);
    ei_start : In n (fst s) \/ In n (snd s)
  }.

  Lemma eps_path_end x y z : path (hedge h) x [] y -> hedge h y None z -> path (hedge h) x [] z.
  Proof. intros H1 H2. change (@nil N) with (@nil N ++ []). eapply path_app; eauto. eapply p_eps; eauto. constructor. Qed.

  Lemma eps_in (set : list nat) : (forall x y, In x set -> hedge h x None y -> In y set) ->
    forall x y, In x set -> path (hedge h) x [] y -> In y set.
  Proof.
    intros Hc x y Hx Hp. remember [] as w eqn:Ew. revert Ew.
    induction Hp as [z|z y z' w Hr Hp IH|z c y w z' Hr Hp IH]; intros Ew; auto; [|discriminate].
    apply IH; eauto.
  Qed.

  Lemma eps_rec_spec n : n < length h ->
    exists s, eps_rec h n = Ok s /\ sorted s /\ forall x, In x s <-> path (hedge h) n [] x.
  Proof.
    intros Hn. unfold eps_rec.
    assert (Hlt : forall x, path (hedge h) n [] x -> x < length h) by (intros x Hx; apply (path_closed _ _ _ _ _ Hcl Hn Hx)).
    set (Q := fun r => exists s, r = Ok s /\ sorted s /\ forall x, In x s <-> path (hedge h) n [] x).
    apply (loop_bound (eps_step h) (eps_inv n) (fun s => length (fst s) + eps_rem (snd s)) Q).
    - intros [q set] Hi. unfold eps_step. cbn [fst snd]. destruct q as [|x q].
      + exists set. split; auto. destruct Hi as [H1 H2 H3 H4]. simpl in *. split; auto. intros y. split.
        * intros Hy. auto.
        * intros Hp. destruct H4 as [[]|H4].
          apply (eps_in set) with (x := n); auto. intros x z Hx Hr. destruct (H3 x z Hx Hr) as [[]|]; auto.
      + destruct (mem x set) eqn:Em.
        * split; [|simpl; lia]. apply mem_In in Em. destruct Hi as [H1 H2 H3 H4]. simpl in *. split; simpl; auto.
          -- intros y Hy. apply H2. tauto.
          -- intros y z Hy Hr. destruct (H3 y z Hy Hr) as [[->|]|]; auto.
          -- destruct H4 as [[->|]|]; auto.
        * assert (Hx : x < length h) by (apply Hlt, Hi; simpl; auto).
          destruct (nth_error h x) as [nd|] eqn:En; [|apply nth_error_None in En; lia].
          split.
          -- destruct Hi as [H1 H2 H3 H4]. simpl in *. split; simpl.
             ++ apply sorted_ins; auto.
             ++ intros y Hy. rewrite in_app_iff, In_ins in Hy. destruct Hy as [[Hy|Hy]|[->|Hy]]; auto.
                eapply eps_path_end; [apply H2; left; left; reflexivity|]. exists nd; auto.
             ++ intros y z Hy Hr. rewrite in_app_iff, In_ins. apply In_ins in Hy as [->|Hy].
                ** destruct Hr as (nd' & En' & Hr). rewrite En in En'. inversion En'; subst. auto.
                ** destruct (H3 y z Hy Hr) as [[->|]|]; auto.
             ++ rewrite in_app_iff, In_ins. destruct H4 as [[->|]|]; auto.
          -- simpl. rewrite app_length. pose proof (eps_rem_ins x set Hx Em) as Hm. unfold outdeg in Hm. rewrite En in Hm. lia.
    - split; simpl.
      + constructor.
      + intros x [[->|[]]|[]]. constructor.
      + intros x y [].
      + auto.
    - simpl. rewrite eps_rem_nil. unfold eps_fuel. lia.
  Qed.
End Eps.

(** *** Nested range maps *)
Definition bcov (m : bmap) (c : N) (q : nat) : Prop :=
  exists b em e s, In (b, em) m /\ In (e, s) em /\ (b <= c)%N /\ (c < e)%N /\ In q s.

Record em_ok (b : N) (em : emap) : Prop := {
  eo_sorted : bsorted em;
  eo_gt : forall e s, In (e, s) em -> (b < e)%N;
  eo_sets : forall e s, In (e, s) em -> sorted s /\ s <> []
}.
Definition bm_ok (m : bmap) : Prop := bsorted m /\ forall b em, In (b, em) m -> em_ok b em.

Lemma In_aget {K V} `{Ord K} (m : list (K * V)) k v : NoDup (map fst m) -> (In (k, v) m <-> aget eqb k m = Some v).
Proof. intros Hn. split; intros Hi; [apply aget_NoDup|eapply aget_In]; eauto; apply eqb_eq. Qed.

Lemma In_bupd {K V} `{Ord K} (m : list (K * V)) k v k0 d f : bsorted m ->
  (In (k, v) (bupd k0 d f m) <->
   (k = k0 /\ v = f (match aget eqb k0 m with Some v0 => v0 | None => d end)) \/ (k <> k0 /\ In (k, v) m)).
Proof.
  intros Hs. rewrite In_aget by (apply bsorted_NoDup, bsorted_bupd; auto). rewrite aget_bupd by auto.
  destruct (eqb_spec k k0) as [->|Hne].
  - split; [intros E; inversion E; auto|]. intros [[_ ->]|[]]; congruence.
  - rewrite <- In_aget by (apply bsorted_NoDup; auto). tauto.
Qed.

Lemma ins_all_nonempty s old : s <> [] \/ old <> [] -> ins_all s old <> [] :> list nat.
Proof.
  intros Hs Hn.
  assert (exists x, In x s \/ In x old) as [x Hx].
  { destruct Hs as [Hs|Hs]; [destruct s as [|x s']; [congruence|]|destruct old as [|x o]; [congruence|]]; exists x; simpl; auto. }
  apply In_ins_all in Hx. rewrite Hn in Hx. destruct Hx.
Qed.

(** adding a set under an end *)
Lemma em_add b em e s : em_ok b em -> (b < e)%N -> sorted s -> s <> [] ->
  em_ok b (bupd e [] (fun old => ins_all s old) em) /\
  forall c q, (exists e' s', In (e', s') (bupd e [] (fun old => ins_all s old) em) /\ (c < e')%N /\ In q s') <->
              (exists e' s', In (e', s') em /\ (c < e')%N /\ In q s') \/ ((c < e)%N /\ In q s).
Proof.
  intros [H1 H2 H3] Hb Hs Hne. split.
  - split.
    + apply bsorted_bupd; auto.
    + intros e' s' Hin. apply In_bupd in Hin as [[-> ->]|[_ Hin]]; auto. eapply H2; eauto.
    + intros e' s' Hin. apply In_bupd in Hin as [[-> ->]|[_ Hin]]; auto; [|eapply H3; eauto]. split.
      * apply sorted_ins_all. destruct (aget eqb e em) as [s0|] eqn:E; [|constructor].
        apply aget_In in E; [|apply eqb_eq]. eapply H3; eauto.
      * apply ins_all_nonempty; auto.
  - intros c q. split.
    + intros (e' & s' & Hin & Hc & Hq). apply In_bupd in Hin as [[-> ->]|[_ Hin]]; auto; [|left; eauto].
      apply In_ins_all in Hq as [Hq|Hq]; auto. destruct (aget eqb e em) as [s0|] eqn:E; [|destruct Hq].
      apply aget_In in E; [|apply eqb_eq]. left; eauto.
    + intros [(e' & s' & Hin & Hc & Hq)|[Hc Hq]].
      * destruct (eqb_spec e' e) as [->|Hn].
        -- exists e. eexists. split; [apply In_bupd; auto|]. split; auto. apply In_ins_all. right.
           apply In_aget in Hin; [|apply bsorted_NoDup; auto]. rewrite Hin. auto.
        -- exists e', s'. split; auto. apply In_bupd; auto.
      * exists e. eexists. split; [apply In_bupd; auto|]. split; auto. apply In_ins_all. auto.
Qed.

Lemma add_edge_ok r s m : bm_ok m -> (fst r < snd r)%N -> sorted s -> s <> [] ->
  bm_ok (add_edge r s m) /\ forall c q, bcov (add_edge r s m) c q <-> bcov m c q \/ (in_range c r /\ In q s).
Proof.
  intros [Hm1 Hm2] Hr Hs Hne. unfold add_edge.
  assert (Hold : em_ok (fst r) (match aget eqb (fst r) m with Some v => v | None => [] end)).
  { destruct (aget eqb (fst r) m) as [em|] eqn:E.
    - apply aget_In in E; [|apply eqb_eq]. eauto.
    - split; simpl; try tauto. constructor. }
  destruct (em_add _ _ (snd r) s Hold Hr Hs Hne) as [He1 He2]. split.
  - split; [apply bsorted_bupd; auto|]. intros b em Hin. apply In_bupd in Hin as [[-> ->]|[_ Hin]]; auto.
  - intros c q. unfold bcov. split.
    + intros (b & em & e & s' & Hin & Hin2 & Hb & Hc & Hq). apply In_bupd in Hin as [[-> ->]|[_ Hin]]; auto; [|left; eauto 10].
      destruct (proj1 (He2 c q)) as [(e' & s'' & H1 & H2 & H3)|[H1 H2]]; eauto.
      * destruct (aget eqb (fst r) m) as [em|] eqn:E; [|destruct H1].
        apply aget_In in E; [|apply eqb_eq]. left. eauto 10.
      * right. split; auto. split; auto.
    + intros [(b & em & e & s' & Hin & Hin2 & Hb & Hc & Hq)|[[Hc1 Hc2] Hq]].
      * destruct (eqb_spec b (fst r)) as [->|Hn].
        -- apply In_aget in Hin; [|apply bsorted_NoDup; auto]. rewrite Hin in He2.
           destruct (proj2 (He2 c q)) as (e' & s'' & H1 & H2 & H3); [left; eauto|].
           exists (fst r). eexists. exists e', s''. split; [apply In_bupd; auto|]. rewrite Hin. auto.
        -- exists b, em, e, s'. split; [apply In_bupd; auto|]. auto.
      * destruct (proj2 (He2 c q)) as (e' & s'' & H1 & H2 & H3); [right; auto|].
        exists (fst r). eexists. exists e', s''. split; [apply In_bupd; auto|]. auto.
Qed.

Section Collect.
  Variable h : list nnode.
  Hypothesis Hok : okh h.
  Hypothesis Hcl : closed (hedge h) (fun p => p < length h).

  (** from node [x] on character [c], then any epsilon steps *)
  Definition cstep (x : nat) (c : N) (q : nat) : Prop := exists y, hedge h x (Some c) y /\ path (hedge h) y [] q.

  Lemma eps_all (l : list nat) : (forall p, In p l -> p < length h) ->
    exists ss, mapM (eps_rec h) l = Ok ss /\
      forall q, In q (concat ss) <-> exists y, In y l /\ path (hedge h) y [] q.
  Proof.
    induction l as [|p l IH]; intros Hl; simpl.
    - exists []. split; auto. simpl. intros q. split; [tauto|intros (y & [] & _)].
    - destruct (eps_rec_spec h Hcl p) as (s & E & _ & Hs); [auto with datatypes|].
      destruct IH as (ss & E' & Hss); [auto with datatypes|]. rewrite E. simpl. rewrite E'. simpl. eexists. split; eauto.
      intros q. simpl. rewrite in_app_iff, Hs, Hss. split.
      + intros [Hp|(y & Hy & Hp)]; eauto.
      + intros (y & [->|Hy] & Hp); eauto.
  Qed.

  Lemma collect_edge_ok m r s : bm_ok m -> (fst r < snd r)%N -> s <> [] -> (forall p, In p s -> p < length h) ->
    exists m', collect_edge h m (r, s) = Ok m' /\ bm_ok m' /\
      forall c q, bcov m' c q <-> bcov m c q \/ (in_range c r /\ exists y, In y s /\ path (hedge h) y [] q).
  Proof.
    intros Hm Hr Hne Hs. unfold collect_edge. cbn [fst snd]. destruct (eps_all s Hs) as (ss & -> & Hss). simpl.
    eexists. split; [reflexivity|].
    destruct (add_edge_ok r (to_set (concat ss)) m Hm Hr (sorted_to_set _)) as [H1 H2].
    { destruct s as [|y s]; [congruence|]. intros E. assert (Hin : In y (to_set (concat ss))).
      { apply In_to_set, Hss. exists y. split; simpl; auto. constructor. }
      rewrite E in Hin. destruct Hin. }
    split; auto. intros c q. rewrite H2, In_to_set, Hss. tauto.
  Qed.

  Lemma collect_edges_ok es : (forall r s, In (r, s) es -> (fst r < snd r)%N /\ s <> [] /\ forall p, In p s -> p < length h) ->
    forall m, bm_ok m -> exists m', foldM (collect_edge h) es m = Ok m' /\ bm_ok m' /\
      forall c q, bcov m' c q <-> bcov m c q \/ exists r s y, In (r, s) es /\ in_range c r /\ In y s /\ path (hedge h) y [] q.
  Proof.
    induction es as [|[r s] es IH]; intros He m Hm; simpl.
    - exists m. split; auto. split; auto. intros c q. split; auto. intros [|(r & s & y & [] & _)]; auto.
    - destruct (He r s) as (H1 & H2 & H3); [simpl; auto|].
      destruct (collect_edge_ok m r s Hm H1 H2 H3) as (m1 & -> & Hm1 & Hc1). simpl.
      destruct (IH (fun r s Hin => He r s (or_intror Hin)) m1 Hm1) as (m' & -> & Hm' & Hc). exists m'. split; auto. split; auto.
      intros c q. rewrite Hc, Hc1. split.
      + intros [[Hb|(Hr & y & Hy & Hp)]|(r' & s' & y & Hin & Hrest)]; auto; right; [exists r, s, y|exists r', s', y]; simpl; auto.
      + intros [Hb|(r' & s' & y & [E|Hin] & Hr & Hy & Hp)]; auto; [inversion E; subst; left; right; eauto|right; eauto 10].
  Qed.

  Lemma collect_ok cur : (forall p, In p cur -> p < length h) ->
    exists m, collect h cur = Ok m /\ bm_ok m /\
      forall c q, bcov m c q <-> exists x, In x cur /\ cstep x c q.
  Proof.
    intros Hcur. unfold collect.
    assert (G : forall m, bm_ok m -> exists m', foldM (collect_node h) cur m = Ok m' /\ bm_ok m' /\
      forall c q, bcov m' c q <-> bcov m c q \/ exists x, In x cur /\ cstep x c q).
    { induction cur as [|x cur IH]; intros m Hm; simpl.
      - exists m. split; auto. split; auto. intros c q. split; auto. intros [|(x & [] & _)]; auto.
      - assert (Hx : x < length h) by (apply Hcur; simpl; auto).
        unfold collect_node at 1. destruct (nth_error h x) as [nd|] eqn:En; [|apply nth_error_None in En; lia]. simpl.
        destruct (collect_edges_ok (n_next nd)) with (m := m) as (m1 & -> & Hm1 & Hc1); auto.
        { intros r s Hin. unfold okh in Hok. rewrite Forall_forall in Hok.
          destruct (Hok nd (nth_error_In _ _ En) r s Hin) as [H1 H2]. split; auto. split; auto.
          intros p Hp. apply (Hcl x (Some (fst r)) p Hx). exists nd. split; auto. exists r, s. split; auto. split; auto. split; lia. }
        simpl. destruct (IH (fun p Hp => Hcur p (or_intror Hp)) m1 Hm1) as (m' & -> & Hm' & Hc). exists m'. split; auto. split; auto.
        intros c q. rewrite Hc, Hc1. split.
        + intros [[Hb|(r & s & y & Hin & Hr & Hy & Hp)]|(x' & Hx' & Hs)]; auto; right.
          * exists x. split; auto. exists y. split; auto. exists nd. split; auto. exists r, s. auto.
          * exists x'. auto.
        + intros [Hb|(x' & [<-|Hx'] & Hs)]; auto; [|right; eauto].
          destruct Hs as (y & (nd' & En' & r & s & Hin & Hr & Hy) & Hp). rewrite En in En'. inversion En'; subst.
          left. right. exists r, s, y. auto. }
    destruct (G []) as (m & E & H1 & H2).
    { split; [constructor|intros b em []]. }
    exists m. split; auto. split; auto. intros c q. rewrite H2. split; [|auto].
    intros [(b & em & e & s & [] & _)|]; auto.
  Qed.
End Collect.

(** *** Alignment *)
Definition ends_le (b : N) (em : emap) : Prop := forall e s, In (e, s) em -> (e <= b)%N.
Definition aligned (m : bmap) : Prop := StronglySorted (fun x y => ends_le (fst y) (snd x)) m.

Lemma bcov_cons x m c q : bcov (x :: m) c q <->
  ((fst x <= c)%N /\ exists e s, In (e, s) (snd x) /\ (c < e)%N /\ In q s) \/ bcov m c q.
Proof.
  unfold bcov. destruct x as [b em]; simpl. split.
  - intros (b' & em' & e & s & [E|Hin] & H); [inversion E; subst; left; firstorder|right; firstorder eauto].
    exists b', em', e, s. tauto.
  - intros [(Hb & e & s & H)|(b' & em' & e & s & H)]; [exists b, em, e, s; tauto|exists b', em', e, s; tauto].
Qed.

Lemma bsorted_filter {K V} `{Ord K} (f : K * V -> bool) m : bsorted m -> bsorted (filter f m).
Proof.
  unfold bsorted. induction 1 as [|x m Hs IH Hx]; simpl; [constructor|]. destruct (f x); auto. constructor; auto.
  rewrite Forall_forall in *. intros y Hy. apply filter_In in Hy as [Hy _]. auto.
Qed.

Lemma em_add_all b em gs : em_ok b em -> (forall k s, In (k, s) gs -> (b < k)%N /\ sorted s /\ s <> []) ->
  em_ok b (fold_left (fun m kv => bupd (fst kv) [] (fun old => ins_all (snd kv) old) m) gs em) /\
  forall c q, (exists e s, In (e, s) (fold_left (fun m kv => bupd (fst kv) [] (fun old => ins_all (snd kv) old) m) gs em) /\ (c < e)%N /\ In q s) <->
              (exists e s, In (e, s) em /\ (c < e)%N /\ In q s) \/ (exists e s, In (e, s) gs /\ (c < e)%N /\ In q s).
Proof.
  revert em; induction gs as [|[k s] gs IH]; simpl; intros em He Hg.
  - split; auto. intros c q. split; auto. intros [|(e & s & [] & _)]; auto.
  - destruct (Hg k s) as (H1 & H2 & H3); auto.
    destruct (em_add b em k s He H1 H2 H3) as [He1 Hc1].
    destruct (IH _ He1) as [He2 Hc2]; auto. split; auto. intros c q. rewrite Hc2, Hc1. split.
    + intros [[H|[H H']]|(e & s' & H & H')]; eauto 10.
    + intros [H|(e & s' & [E|H] & H')]; eauto 10. inversion E; subst. tauto.
Qed.

Lemma union_spec (gs : emap) s0 : sorted s0 ->
  sorted (fold_left (fun s kv => ins_all (snd kv) s) gs s0) /\
  forall q, In q (fold_left (fun s kv => ins_all (snd kv) s) gs s0) <-> In q s0 \/ exists k s, In (k, s) gs /\ In q s.
Proof.
  revert s0; induction gs as [|[k s] gs IH]; simpl; intros s0 H0.
  - split; auto. intros q. split; auto. intros [|(k & s & [] & _)]; auto.
  - destruct (IH (ins_all s s0)) as [H1 H2]; [apply sorted_ins_all; auto|]. split; auto.
    intros q. rewrite H2, In_ins_all. split.
    + intros [[H|H]|(k' & s' & H & H')]; eauto 10.
    + intros [H|(k' & s' & [E|H] & H')]; eauto 10. inversion E; subst. auto.
Qed.

Lemma align_ok rest : forall cur, bm_ok (cur :: rest) ->
  bm_ok (align cur rest) /\ aligned (align cur rest) /\
  (forall c q, bcov (align cur rest) c q <-> bcov (cur :: rest) c q) /\
  Forall (fun x => (fst cur <= fst x)%N) (align cur rest).
Proof.
  induction rest as [|[upper nxt] rest IH]; intros [b em] [Hs Ho]; simpl.
  - split; [split; auto|]. split; [repeat constructor|]. split; [tauto|]. constructor; [simpl; lia|constructor].
  - set (greater := filter (fun kv => N.ltb upper (fst kv)) em).
    set (keep := filter (fun kv => negb (N.ltb upper (fst kv))) em).
    assert (Hb : (b < upper)%N).
    { inversion Hs as [|? ? _ Hx]; subst. inversion Hx; subst. apply N.compare_lt_iff. auto. }
    assert (Hem := Ho b em (or_introl eq_refl)). assert (Hnxt := Ho upper nxt (or_intror (or_introl eq_refl))).
    assert (Hs' : bsorted ((upper, nxt) :: rest)) by (inversion Hs; auto).
    assert (Hg : forall k s, In (k, s) greater <-> In (k, s) em /\ (upper < k)%N).
    { intros k s. unfold greater. rewrite filter_In. simpl. rewrite N.ltb_lt. tauto. }
    assert (Hk : forall k s, In (k, s) keep <-> In (k, s) em /\ (k <= upper)%N).
    { intros k s. unfold keep. rewrite filter_In. simpl. rewrite negb_true_iff, N.ltb_ge. tauto. }
    assert (Hsort : forall nxt', em_ok upper nxt' -> bm_ok ((upper, nxt') :: rest)).
    { intros nxt' Hn. split.
      - inversion Hs' as [|? ? Ha Hf]; subst. constructor; auto.
      - intros b' em' [E|Hin]; [inversion E; subst; auto|]. apply Ho. simpl; auto. }
    assert (Hfin : forall em' nxt', em_ok b em' -> ends_le upper em' -> em_ok upper nxt' ->
              (forall c q, ((b <= c)%N /\ (exists e s, In (e, s) em' /\ (c < e)%N /\ In q s)) \/ ((upper <= c)%N /\ (exists e s, In (e, s) nxt' /\ (c < e)%N /\ In q s)) <->
                           ((b <= c)%N /\ (exists e s, In (e, s) em /\ (c < e)%N /\ In q s)) \/ ((upper <= c)%N /\ (exists e s, In (e, s) nxt /\ (c < e)%N /\ In q s))) ->
              bm_ok ((b, em') :: align (upper, nxt') rest) /\ aligned ((b, em') :: align (upper, nxt') rest) /\
              (forall c q, bcov ((b, em') :: align (upper, nxt') rest) c q <-> bcov ((b, em) :: (upper, nxt) :: rest) c q) /\
              Forall (fun x => (b <= fst x)%N) ((b, em') :: align (upper, nxt') rest)).
    { intros em' nxt' He Hle Hn Hcov. destruct (IH (upper, nxt') (Hsort nxt' Hn)) as ([A1 A1'] & A2 & A3 & A4). simpl in A4.
      split; [|split; [|split]].
      - split.
        + constructor; auto. eapply Forall_impl; [|exact A4]. intros [b' em''] H'. simpl in *. apply N.compare_lt_iff. lia.
        + intros b' em'' [E|Hin]; [inversion E; subst; auto|auto].
      - constructor; auto. eapply Forall_impl; [|exact A4]. intros [b' em''] H' e s Hin. simpl in *. apply Hle in Hin. lia.
      - intros c q. rewrite bcov_cons, A3, !bcov_cons. simpl. rewrite <- !or_assoc, (Hcov c q). tauto.
      - constructor; [simpl; lia|]. eapply Forall_impl; [|exact A4]. simpl. intros; lia. }
    destruct greater as [|g0 gs] eqn:Eg.
    + apply Hfin; auto; [|tauto]. intros e s Hin. destruct (N.le_gt_cases e upper); auto.
      exfalso. destruct (proj2 (Hg e s)); auto.
    + set (limit := fold_left (fun s kv => ins_all (snd kv) s) (g0 :: gs) []).
      destruct (union_spec (g0 :: gs) [] (sorted_nil)) as [U1 U2]. fold limit in U1, U2.
      assert (Hkeep : em_ok b keep).
      { destruct Hem as [E1 E2 E3]. split; [apply bsorted_filter; auto| |]; intros e s Hin; apply Hk in Hin as [Hin _]; eauto. }
      assert (Hlim : limit <> []).
      { destruct g0 as [k0 s0]. destruct (proj1 (Hg k0 s0)) as [Hin _]; [simpl; auto|]. destruct Hem as [E1 E2 E3].
        destruct (E3 _ _ Hin) as [_ Hne]. destruct s0 as [|x s0]; [congruence|]. intros E.
        assert (Hx : In x limit) by (apply U2; right; exists k0, (x :: s0); simpl; auto). rewrite E in Hx. destruct Hx. }
      destruct (em_add b keep upper limit Hkeep Hb U1 Hlim) as [K1 K2].
      destruct (em_add_all upper nxt (g0 :: gs) Hnxt) as [N1 N2].
      { intros k s Hin. apply Hg in Hin as [Hin Hlt]. split; auto. apply (eo_sets _ _ Hem _ _ Hin). }
      apply Hfin; auto.
      * intros e s Hin. apply In_bupd in Hin; [|apply Hkeep]. destruct Hin as [[-> _]|[_ Hin]]; [lia|]. apply Hk in Hin. tauto.
      * intros c q. rewrite K2, N2. split.
        -- intros [[Hc [(e & s & Hin & Hr)|[Hlt Hq]]]|[Hc [H|(e & s & Hin & Hr)]]]; auto.
           ++ left. split; auto. apply Hk in Hin as [Hin _]. eauto.
           ++ apply U2 in Hq as [[]|(k & s & Hin & Hq)]. apply Hg in Hin as [Hin Hlt']. left. split; auto. exists k, s. split; auto. split; auto. lia.
           ++ apply Hg in Hin as [Hin Hlt']. left. split; [lia|]. eauto.
        -- intros [[Hc (e & s & Hin & Hlt & Hq)]|[Hc H]]; auto.
           destruct (N.le_gt_cases e upper) as [Hle|Hgt].
           ++ left. split; auto. left. exists e, s. split; auto. apply Hk; auto.
           ++ assert (Hin' : In (e, s) (g0 :: gs)) by (apply Hg; auto).
              destruct (N.lt_ge_cases c upper) as [Hcu|Hcu].
              ** left. split; auto. right. split; auto. apply U2. right. eauto.
              ** right. split; auto. right. eauto.
Qed.

Lemma align_by_begin_ok m : bm_ok m ->
  bm_ok (align_by_begin m) /\ aligned (align_by_begin m) /\ (forall c q, bcov (align_by_begin m) c q <-> bcov m c q).
Proof.
  destruct m as [|x r]; simpl; intros H.
  - split; auto. split; [constructor|tauto].
  - destruct (align_ok r x H) as (H1 & H2 & H3 & _). auto.
Qed.

(** *** Splitting: sorted, disjoint, non-empty ranges *)
Definition ranges_ok {V} (l : list (crange * V)) : Prop :=
  Forall (fun x => (fst (fst x) < snd (fst x))%N) l /\ StronglySorted (fun x y => (snd (fst x) <= fst (fst y))%N) l.

Definition lcov (l : list (crange * list nat)) (c : N) (q : nat) : Prop :=
  exists r s, In (r, s) l /\ in_range c r /\ In q s.

Lemma split_ranges_ok em : forall b, em_ok b em ->
  let (rs, sum) := split_ranges b em in
  ranges_ok rs /\ Forall (fun x => (b <= fst (fst x))%N) rs /\
  (forall u, ends_le u em -> Forall (fun x => (snd (fst x) <= u)%N) rs) /\
  Forall (fun x => sorted (snd x) /\ snd x <> []) rs /\
  (sorted sum /\ forall q, In q sum <-> exists e s, In (e, s) em /\ In q s) /\
  forall c q, lcov rs c q <-> (b <= c)%N /\ exists e s, In (e, s) em /\ (c < e)%N /\ In q s.
Proof.
  induction em as [|[e s] em IH]; intros b [Hs Hg Hset]; simpl.
  - split; [split; constructor|]. split; [constructor|]. split; [constructor|]. split; [constructor|].
    split; [split; [constructor|]; intros q; split; [tauto|intros (e & s & [] & _)]|].
    intros c q. unfold lcov. split; [intros (r & s & [] & _)|intros (_ & e & s & [] & _)].
  - assert (Hbe : (b < e)%N) by (eapply Hg; simpl; eauto).
    assert (Hs2 : bsorted em) by (inversion Hs; auto).
    assert (Hgt : forall e' s', In (e', s') em -> (e < e')%N).
    { intros e' s' Hin. inversion Hs as [|? ? _ Hx]; subst. rewrite Forall_forall in Hx. apply N.compare_lt_iff. apply (Hx _ Hin). }
    destruct (Hset e s (or_introl eq_refl)) as [Hss Hsn].
    specialize (IH e). destruct (split_ranges e em) as [rs sum].
    destruct IH as ([R1 R1'] & R2 & R3 & R4 & [R5 R5'] & R6).
    { split; auto. intros e' s' Hin. apply (Hset e' s'). simpl; auto. }
    split; [|split; [|split; [|split; [|split]]]].
    + split; constructor; auto. 
    + constructor; simpl; [lia|]. eapply Forall_impl; [|exact R2]. simpl. intros; lia.
    + intros u Hu. constructor; simpl; [apply (Hu e s); simpl; auto|]. apply R3. intros e' s' Hin. apply (Hu e' s'). simpl; auto.
    + constructor; auto. simpl. split; [apply sorted_ins_all; auto|apply ins_all_nonempty; auto].
    + split; [apply sorted_ins_all; auto|]. intros q. rewrite In_ins_all, R5'. split.
      * intros [H|(e' & s' & H & H')]; eauto 6.
      * intros (e' & s' & [E|H] & H'); [inversion E; subst; auto|eauto].
    + intros c q. assert (Hl : lcov (((b, e), ins_all s sum) :: rs) c q <-> (in_range c (b, e) /\ In q (ins_all s sum)) \/ lcov rs c q).
      { unfold lcov. split.
        - intros (r & s' & [E|H] & H'); [inversion E; subst; auto|right; eauto].
        - intros [H|(r & s' & H & H')]; [exists (b, e), (ins_all s sum); simpl; tauto|exists r, s'; simpl; tauto]. }
      rewrite Hl, R6, In_ins_all, R5'. unfold in_range. simpl. split.
      * intros [[Hc [Hq|(e' & s' & Hin & Hq)]]|[Hc (e' & s' & Hin & Hlt & Hq)]].
        -- split; [tauto|]. exists e, s. tauto.
        -- split; [tauto|]. exists e', s'. apply Hgt in Hin as Hlt. split; auto. split; auto. lia.
        -- split; [lia|]. exists e', s'. auto.
      * intros [Hb (e' & s' & [E|Hin] & Hlt & Hq)].
        -- inversion E; subst. left. split; [lia|auto].
        -- destruct (N.lt_ge_cases c e) as [Hce|Hce]; [left; split; [lia|right; eauto]|right; split; [lia|eauto]].
Qed.

Lemma StronglySorted_app {A} (R : A -> A -> Prop) l1 l2 : StronglySorted R l1 -> StronglySorted R l2 ->
  (forall x y, In x l1 -> In y l2 -> R x y) -> StronglySorted R (l1 ++ l2).
Proof.
  induction 1 as [|a l Hs IH Ha]; simpl; intros H2 H; auto. constructor; [apply IH; auto|].
  apply Forall_app. split; auto. apply Forall_forall. intros y Hy. apply H; auto.
Qed.

Lemma ranges_ok_app {V} (l1 l2 : list (crange * V)) : ranges_ok l1 -> ranges_ok l2 ->
  (forall x y, In x l1 -> In y l2 -> (snd (fst x) <= fst (fst y))%N) -> ranges_ok (l1 ++ l2).
Proof. intros [A1 A2] [B1 B2] H. split; [apply Forall_app; auto|apply StronglySorted_app; auto]. Qed.

Lemma split_by_end_ok m : bm_ok m -> aligned m ->
  ranges_ok (split_by_end m) /\ Forall (fun x => sorted (snd x) /\ snd x <> []) (split_by_end m) /\
  forall c q, lcov (split_by_end m) c q <-> bcov m c q.
Proof.
  intros [Hs Ho] Ha.
  assert (G : ranges_ok (split_by_end m) /\ Forall (fun x => sorted (snd x) /\ snd x <> []) (split_by_end m) /\
    (forall c q, lcov (split_by_end m) c q <-> bcov m c q) /\
    (forall b0, Forall (fun x => (b0 <= fst x)%N) m -> Forall (fun x => (b0 <= fst (fst x))%N) (split_by_end m))); [|tauto].
  induction m as [|[b em] m IH].
  - unfold split_by_end; simpl. split; [split; constructor|]. split; [constructor|]. split; [|constructor].
    intros c q. unfold lcov, bcov. split; [intros (r & s & [] & _)|intros (? & ? & ? & ? & [] & _)].
  - unfold split_by_end. simpl. fold (split_by_end m).
    pose proof (split_ranges_ok em b (Ho b em (or_introl eq_refl))) as Hr. destruct (split_ranges b em) as [rs sum]. simpl.
    destruct Hr as (R1 & R2 & R3 & R4 & _ & R6).
    inversion Hs as [|? ? Hs' Hx]; inversion Ha as [|? ? Ha' Hy]; subst.
    destruct IH as (I1 & I2 & I3 & I4); auto; [intros; apply Ho; simpl; auto|].
    split; [|split; [|split]].
    + apply ranges_ok_app; auto. intros x y Hin1 Hin2. destruct m as [|[b2 em2] m]; [destruct Hin2|].
      assert (Hle : ends_le b2 em) by (inversion Hy; auto).
      apply R3 in Hle. rewrite Forall_forall in Hle. apply Hle in Hin1.
      assert (Hge : Forall (fun x => (b2 <= fst (fst x))%N) (split_by_end ((b2, em2) :: m))).
      { apply I4. constructor; [simpl; lia|]. inversion Hs' as [|? ? _ Hz]; subst. eapply Forall_impl; [|exact Hz].
        intros [b3 em3] Hlt. simpl in *. change (b2 < b3)%N in Hlt. lia. }
      rewrite Forall_forall in Hge. apply Hge in Hin2. cbn beta in *. eapply N.le_trans; eauto.
    + apply Forall_app; auto.
    + intros c q. rewrite bcov_cons. simpl. rewrite <- I3, <- R6. unfold lcov. split.
      * intros (r & s & Hin & H). apply in_app_or in Hin as [Hin|Hin]; [left|right]; eauto.
      * intros [(r & s & Hin & H)|(r & s & Hin & H)]; exists r, s; (split; [apply in_or_app; auto|auto]).
    + intros b0 Hb0. inversion Hb0; subst. simpl in *. apply Forall_app. split; auto.
      eapply Forall_impl; [|exact R2]. simpl. intros; lia.
Qed.

(** *** All outgoing transitions of a set of NFA nodes *)
Definition trans (h : list nnode) (cur : list nat) : res (list (crange * list nat)) :=
  do m <- collect h cur; Ok (split_by_end (align_by_begin m)).

Theorem trans_ok h cur : okh h -> closed (hedge h) (fun p => p < length h) -> (forall p, In p cur -> p < length h) ->
  exists l, trans h cur = Ok l /\ ranges_ok l /\
    Forall (fun x => sorted (snd x) /\ snd x <> []) l /\
    forall c q, lcov l c q <-> exists x, In x cur /\ cstep h x c q.
Proof.
  intros Hok Hcl Hcur. destruct (collect_ok h Hok Hcl cur Hcur) as (m & E & Hm & Hc).
  unfold trans. rewrite E. simpl. eexists. split; [reflexivity|].
  destruct (align_by_begin_ok m Hm) as (A1 & A2 & A3).
  destruct (split_by_end_ok _ A1 A2) as (S1 & S2 & S3). split; auto. split; auto.
  intros c q. rewrite S3, A3, Hc. tauto.
Qed.
