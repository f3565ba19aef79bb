(** minify terminates without panic for any hash behaviour; with honest hash tables the
    result accepts the same words for the same patterns and is minimal. *)
From Verif Require Import Lib Hir NfaPath NfaModel NfaProofs DfaModel DfaEdges DfaProofs MinModel.

(** *** compress_next: maximal ranges *)
Definition gap (x y : crange * nat) : Prop := snd (fst x) = fst (fst y) -> snd x <> snd y.
Fixpoint gaps (k : ckey) : Prop :=
  match k with x :: ((y :: _) as k') => gap x y /\ gaps k' | _ => True end.
Definition canonical (k : ckey) : Prop := ranges_ok k /\ gaps k.

Lemma gaps_app k x y : gaps (k ++ [x]) -> gap x y -> gaps (k ++ [x; y]).
Proof.
  induction k as [|a k IH]; intros H G; [simpl; tauto|].
  destruct k as [|b k]; simpl in *; [tauto|]. destruct H as [H1 H2]. split; [auto|]. apply IH; auto.
Qed.

Lemma gaps_replace k x x' : gaps (k ++ [x]) -> fst (fst x) = fst (fst x') -> snd x = snd x' -> gaps (k ++ [x']).
Proof.
  intros H E1 E2. revert H. induction k as [|a k IH]; intros H; [simpl; auto|].
  destruct k as [|b k]; simpl in *.
  - unfold gap in *. rewrite <- E1, <- E2. auto.
  - destruct H as [H1 H2]. split; [auto|]. apply IH; auto.
Qed.

Lemma lookup_ext {V} (k1 k2 : list (crange * V)) c : ranges_ok k1 -> ranges_ok k2 ->
  (forall v, (exists r, In (r, v) k1 /\ in_range c r) <-> (exists r, In (r, v) k2 /\ in_range c r)) -> lookup c k1 = lookup c k2.
Proof.
  intros R1 R2 H. destruct (lookup c k1) as [v|] eqn:E1.
  - apply lookup_spec in E1; auto. symmetry. apply lookup_spec; auto. apply H; auto.
  - symmetry. apply lookup_None; auto. intros r v Hin Hc.
    destruct (proj2 (H v)) as (r' & Hin' & Hc'); eauto. eapply (proj1 (lookup_None c k1 R1)); eauto.
Qed.

Lemma lookup_cons_in (r : crange) v (k : ckey) c : ranges_ok ((r, v) :: k) -> in_range c r -> lookup c ((r, v) :: k) = Some v.
Proof. intros R Hc. apply lookup_spec; auto. exists r; simpl; auto. Qed.
Lemma lookup_cons_out (r : crange) v (k : ckey) c : ranges_ok ((r, v) :: k) -> ~ in_range c r -> lookup c ((r, v) :: k) = lookup c k.
Proof.
  intros R Hc. apply lookup_ext; auto.
  - destruct R as [R1 R2]. inversion R1; inversion R2; subst. split; auto.
  - intros v'. split; intros (r' & Hin & Hr').
    + destruct Hin as [E|Hin]; [inversion E; subst; tauto|eauto].
    + exists r'. simpl; auto.
Qed.
Lemma ranges_ok_tl {V} (x : crange * V) k : ranges_ok (x :: k) -> ranges_ok k.
Proof. intros [R1 R2]. inversion R1; inversion R2; subst. split; auto. Qed.
Lemma lookup_before (x : crange * nat) k c : ranges_ok (x :: k) -> (c < fst (fst x))%N -> lookup c (x :: k) = None.
Proof.
  intros [R1 R2] Hc. apply lookup_None; [split; auto|]. intros r v [->|Hin] [H1 H2]; simpl in *; [lia|].
  inversion R2 as [|? ? _ Hf]; subst. rewrite Forall_forall in Hf. specialize (Hf _ Hin). simpl in Hf.
  inversion R1; subst. destruct x as [[s e] u]; simpl in *. lia.
Qed.

Lemma canonical_diff (k1 : ckey) : forall k2, canonical k1 -> canonical k2 -> k1 = k2 \/ exists c, lookup c k1 <> lookup c k2.
Proof.
  induction k1 as [|[[s1 e1] v1] k1 IH]; intros k2 [R1 G1] [R2 G2].
  - destruct k2 as [|[[s2 e2] v2] k2]; auto. right. exists s2.
    rewrite (lookup_cons_in (s2, e2) v2 k2 s2 R2); [discriminate|]. destruct R2 as [R2 _]. inversion R2; subst. simpl in *. split; simpl; lia.
  - assert (L1 : (s1 < e1)%N) by (destruct R1 as [R _]; inversion R; auto).
    assert (H1 : forall c, (s1 <= c < e1)%N -> lookup c (((s1, e1), v1) :: k1) = Some v1).
    { intros c Hc. apply lookup_cons_in; [auto|split; simpl; lia]. }
    destruct k2 as [|[[s2 e2] v2] k2].
    { right. exists s1. rewrite H1 by lia. discriminate. }
    assert (L2 : (s2 < e2)%N) by (destruct R2 as [R _]; inversion R; auto).
    assert (H2 : forall c, (s2 <= c < e2)%N -> lookup c (((s2, e2), v2) :: k2) = Some v2).
    { intros c Hc. apply lookup_cons_in; [auto|split; simpl; lia]. }
    assert (End : forall (s e : N) v k, canonical (((s, e), v) :: k) -> (s < e)%N -> lookup e (((s, e), v) :: k) <> Some v).
    { clear. intros s e v k [R G] L. rewrite lookup_cons_out; [|auto|intros [_ Hx]; simpl in Hx; lia].
      destruct k as [|[[s' e'] v'] k]; [discriminate|]. assert (Hle : (e <= s')%N).
      { destruct R as [_ R]. inversion R as [|? ? _ Hf]; subst. inversion Hf; subst. auto. }
      assert (Rt := ranges_ok_tl _ _ R). destruct (N.eq_dec e s') as [->|Hne].
      - rewrite (lookup_cons_in (s', e') v' k s' Rt).
        + intros Ex. inversion Ex; subst. destruct G as [G _]. apply G; reflexivity.
        + destruct Rt as [Rt _]. inversion Rt; subst. split; simpl in *; lia.
      - rewrite (lookup_before ((s', e'), v') k e Rt); [discriminate|simpl; lia]. }
    destruct (N.lt_trichotomy s1 s2) as [Hlt|[->|Hgt]].
    + right. exists s1. rewrite H1 by lia. rewrite (lookup_before ((s2, e2), v2) k2 s1 R2); [discriminate|simpl; auto].
    + destruct (Nat.eq_dec v1 v2) as [->|Hv].
      2:{ right. exists s2. rewrite H1, H2 by lia. congruence. }
      destruct (N.lt_trichotomy e1 e2) as [Hlt|[->|Hgt]].
      * right. exists e1. rewrite (H2 e1) by lia. apply End; auto. split; auto.
      * destruct (IH k2) as [->|[c Hc]]; auto.
        -- split; [eapply ranges_ok_tl; eauto|destruct k1; simpl in *; tauto].
        -- split; [eapply ranges_ok_tl; eauto|destruct k2; simpl in *; tauto].
        -- right. exists c. intros Heq. apply Hc. clear End IH.
           assert (Hout : ~ in_range c (s2, e2)).
           { intros [Ha Hb]. simpl in *.
             assert (O : forall k, ranges_ok (((s2, e2), v2) :: k) -> lookup c k = None).
             { clear -Hb. intros k [R1 R2]. apply lookup_None.
               - inversion R1; inversion R2; subst; split; auto.
               - intros r v Hin [Hr _]. inversion R2 as [|? ? _ Hf]; subst. rewrite Forall_forall in Hf. specialize (Hf _ Hin). simpl in Hf. lia. }
             apply Hc. rewrite (O k1 R1), (O k2 R2). reflexivity. }
           rewrite (lookup_cons_out _ _ _ _ R1 Hout), (lookup_cons_out _ _ _ _ R2 Hout) in Heq. auto.
      * right. exists e2. rewrite (H1 e2) by lia. apply not_eq_sym. apply End; auto. split; auto.
    + right. exists s2. rewrite (H2 s2) by lia. rewrite (lookup_before ((s1, e1), v1) k1 s2 R1); [discriminate|simpl; auto].
Qed.

(** state of the compression after a prefix *)
Definition gval (g : list nat) (j : nat) : nat := nth j g 0.
Definition cval (g : list nat) (nd : dnode) (c : N) : option nat := option_map (gval g) (lookup c nd).

Lemma ranges_ok_last {V} (l : list (crange * V)) x : ranges_ok l -> (fst (fst x) < snd (fst x))%N ->
  (forall y, In y l -> (snd (fst y) <= fst (fst x))%N) -> ranges_ok (l ++ [x]).
Proof.
  intros [R1 R2] Hx Hl. split.
  - apply Forall_app. split; auto.
  - apply StronglySorted_app; auto; [repeat constructor|]. intros a b Ha [<-|[]]. auto.
Qed.

Definition cov (l : ckey) (c : N) (v : nat) : Prop := exists r, In (r, v) l /\ in_range c r.

Lemma compress_ok (g : list nat) (nd : dnode) : ranges_ok nd -> (forall r j, In (r, j) nd -> j < length g) ->
  exists k, compress g nd = Ok k /\ canonical k /\ (forall c, lookup c k = cval g nd c) /\
            (forall r v, In (r, v) k -> exists r' j, In (r', j) nd /\ gval g j = v).
Proof.
  intros Hr Hj.
  (* after a non-empty prefix: the pending range is attached to the output *)
  assert (G : forall nd, ranges_ok nd -> (forall r j, In (r, j) nd -> j < length g) ->
    (nd = [] /\ foldM (compress_step g) nd (mk_cstate None None None []) = Ok (mk_cstate None None None [])) \/
    (exists b e v out, foldM (compress_step g) nd (mk_cstate None None None []) = Ok (mk_cstate (Some b) (Some e) (Some v) out) /\
       canonical (out ++ [((b, e), v)]) /\
       (exists r j nd0, nd = nd0 ++ [(r, j)] /\ e = snd r /\ v = gval g j) /\
       (forall c v', cov (out ++ [((b, e), v)]) c v' <-> exists r j, In (r, j) nd /\ in_range c r /\ gval g j = v') /\
       (forall r v', In (r, v') (out ++ [((b, e), v)]) -> exists r' j, In (r', j) nd /\ gval g j = v'))).
  { clear nd Hr Hj. induction nd as [|[r j] nd IH] using rev_ind; intros Hr Hj; auto. right.
    apply ranges_ok_app_inv in Hr as (Ra & Rb & Rc).
    assert (Lr : (fst r < snd r)%N) by (destruct Rb as [Rb _]; inversion Rb; auto).
    assert (Hja : j < length g) by (apply (Hj r); apply in_or_app; simpl; auto).
    assert (Ej : nth_error g j = Some (gval g j)) by (unfold gval; apply nth_error_nth'; auto).
    rewrite foldM_app.
    destruct IH as [[-> E]|(b & e & v & out & E & [CR CG] & (r0 & j0 & nd0 & -> & -> & ->) & Hcov & Hval)]; auto.
    - intros r' j' Hin. apply (Hj r'). apply in_or_app; auto.
    - simpl. rewrite Ej. simpl. exists (fst r), (snd r), (gval g j), []. split; auto.
      simpl. split; [|split; [|split]].
      + split; simpl; auto. split; repeat constructor; auto.
      + exists r, j, []. auto.
      + intros c v'. unfold cov. simpl. split.
        * intros (r' & [E1|[]] & Hc). inversion E1; subst. exists r, j. destruct r; auto.
        * intros (r' & j' & [E1|[]] & Hc & <-). inversion E1; subst. exists (fst r', snd r'). destruct r'; auto.
      + intros r' v' [E1|[]]. inversion E1; subst. exists r, j. auto.
    - rewrite E. cbn [bind foldM compress_step]. rewrite Ej. cbn [of_opt bind cs_group cs_end cs_begin].
      assert (Hle : (snd r0 <= fst r)%N).
      { apply (Rc (r0, j0) (r, j)); simpl; auto. apply in_or_app; simpl; auto. }
      assert (Hb : (b < snd r0)%N).
      { destruct CR as [CR _]. apply Forall_app in CR as [_ CR]. inversion CR; auto. }
      assert (Hbr : forall y, In y out -> (snd (fst y) <= b)%N).
      { apply ranges_ok_app_inv in CR as (_ & _ & CR). intros y Hy. apply (CR y ((b, snd r0), gval g j0)); simpl; auto. }
      assert (Hout : ranges_ok out) by (apply ranges_ok_app_inv in CR as (CR & _); auto).
      destruct (negb (Nat.eqb (gval g j0) (gval g j)) || negb (N.eqb (snd r0) (fst r))) eqn:Eb.
      + cbn [flush cs_begin cs_end of_opt bind cs_out].
        rewrite (rset_last (b, snd r0) (gval g j0) out).
        2:{ intros x Hx. specialize (Hbr x Hx). destruct Hout as [Ho _]. rewrite Forall_forall in Ho. specialize (Ho x Hx). simpl. destruct x as [[? ?] ?]; simpl in *; lia. }
        exists (fst r), (snd r), (gval g j), (out ++ [((b, snd r0), gval g j0)]). split; auto.
        split; [|split; [|split]].
        * split.
          -- apply ranges_ok_last; auto. intros y Hy. apply in_app_or in Hy as [Hy|[<-|[]]]; simpl; auto.
             specialize (Hbr y Hy). destruct y as [[? ?] ?]; simpl in *; lia.
          -- rewrite <- app_assoc. apply gaps_app; auto. unfold gap. simpl. intros E1 E2.
             rewrite E1, E2, Nat.eqb_refl, N.eqb_refl in Eb. discriminate.
        * exists r, j, (nd0 ++ [(r0, j0)]). auto.
        * intros c v'. unfold cov. split.
          -- intros (r' & Hin & Hc). apply in_app_or in Hin as [Hin|[E1|[]]].
             ++ destruct (proj1 (Hcov c v')) as (r1 & j1 & H1 & H2); [exists r'; auto|]. exists r1, j1. split; auto. apply in_or_app; auto.
             ++ inversion E1; subst. exists r, j. split; [apply in_or_app; simpl; auto|]. destruct r; auto.
          -- intros (r' & j' & Hin & Hc & <-). apply in_app_or in Hin as [Hin|[E1|[]]].
             ++ destruct (proj2 (Hcov c (gval g j'))) as (r1 & H1 & H2); [exists r', j'; auto|]. exists r1. split; auto. apply in_or_app; auto.
             ++ inversion E1; subst. exists (fst r', snd r'). split; [apply in_or_app; simpl; auto|]. destruct r'; auto.
        * intros r' v' Hin. apply in_app_or in Hin as [Hin|[E1|[]]].
          -- destruct (Hval _ _ Hin) as (r1 & j1 & H1 & H2). exists r1, j1. split; auto. apply in_or_app; auto.
          -- inversion E1; subst. exists r, j. split; auto. apply in_or_app; simpl; auto.
      + apply orb_false_iff in Eb as [E1 E2]. rewrite negb_false_iff in E1, E2. apply Nat.eqb_eq in E1. apply N.eqb_eq in E2.
        cbn [bind cs_begin cs_out]. exists b, (snd r), (gval g j), out. split; auto.
        split; [|split; [|split]].
        * split.
          -- apply ranges_ok_last; auto. simpl. lia.
          -- eapply gaps_replace; [exact CG|reflexivity|exact E1].
        * exists r, j, (nd0 ++ [(r0, j0)]). auto.
        * intros c v'. unfold cov. split.
          -- intros (r' & Hin & Hc). apply in_app_or in Hin as [Hin|[Ex|[]]].
             ++ destruct (proj1 (Hcov c v')) as (r1 & j1 & H1 & H2); [exists r'; split; [apply in_or_app|]; auto|]. exists r1, j1. split; auto. apply in_or_app; auto.
             ++ inversion Ex; subst. destruct Hc as [Hc1 Hc2]; simpl in *.
                destruct (N.lt_ge_cases c (snd r0)) as [Hlt|Hge].
                ** destruct (proj1 (Hcov c (gval g j0))) as (r1 & j1 & H1 & H2 & H3).
                   { exists (b, snd r0). split; [apply in_or_app; simpl; auto|split; simpl; auto]. }
                   exists r1, j1. split; [apply in_or_app; auto|]. split; auto. congruence.
                ** exists r, j. split; [apply in_or_app; simpl; auto|]. split; auto. split; auto. lia.
          -- intros (r' & j' & Hin & Hc & <-). apply in_app_or in Hin as [Hin|[Ex|[]]].
             ++ destruct (proj2 (Hcov c (gval g j'))) as (r1 & H1 & H2); [exists r', j'; auto|]. apply in_app_or in H1 as [H1|[Ex|[]]].
                ** exists r1. split; auto. apply in_or_app; auto.
                ** inversion Ex; subst. exists (b, snd r). split.
                   --- apply in_or_app. right. left. congruence.
                   --- destruct H2 as [H2 H3]; simpl in *. split; simpl; lia.
             ++ inversion Ex; subst. exists (b, snd r'). split; [apply in_or_app; simpl; auto|]. destruct Hc. split; simpl; [lia|auto].
        * intros r' v' Hin. apply in_app_or in Hin as [Hin|[Ex|[]]].
          -- destruct (Hval r' v') as (r1 & j1 & H1 & H2); [apply in_or_app; auto|]. exists r1, j1. split; auto. apply in_or_app; auto.
          -- inversion Ex; subst. exists r, j. split; auto. apply in_or_app; simpl; auto. }
  unfold compress. destruct (G nd Hr Hj) as [[-> E]|(b & e & v & out & E & [CR CG] & _ & Hcov & Hval)]; rewrite E; cbn [bind cs_group].
  - exists []. simpl. split; auto. split; [split; simpl; auto; split; constructor|]. split; [reflexivity|]. intros r v [].
  - cbn [flush cs_begin cs_end of_opt bind cs_out]. rewrite rset_last.
    2:{ intros x Hx. pose proof (ranges_ok_app_inv _ _ CR) as ([Ho _] & _ & C3). rewrite Forall_forall in Ho.
        specialize (C3 x ((b, e), v) Hx (or_introl eq_refl)). specialize (Ho x Hx). destruct x as [[? ?] ?]; simpl in *; lia. }
    exists (out ++ [((b, e), v)]). split; auto. split; [split; auto|]. split; auto.
    intros c. unfold cval. destruct (lookup c nd) as [j|] eqn:El; simpl.
    + apply lookup_spec; auto. apply Hcov. apply lookup_spec in El as (r & H1 & H2); auto. eauto.
    + apply lookup_None; auto. intros r v' Hin Hc. destruct (proj1 (Hcov c v')) as (r1 & j1 & H1 & H2 & _); [exists r; auto|].
      eapply (proj1 (lookup_None c nd Hr)); eauto.
Qed.

(** *** One iteration of the refinement *)
Lemma nth_gval g n : n < length g -> nth_error g n = Some (gval g n).
Proof. intros. unfold gval. apply nth_error_nth'; auto. Qed.

Lemma In_group_sets g k s : nth_error (group_sets g) k = Some s -> forall n, In n s <-> n < length g /\ gval g n = k.
Proof.
  unfold group_sets. destruct g as [|x g]; [destruct k; discriminate|]. intros H.
  assert (Hk : k < S (list_max (x :: g))).
  { apply nth_error_Some_lt in H. rewrite map_length, seq_length in H. auto. }
  rewrite nth_error_map in H. rewrite (nth_error_nth' _ 0) in H by (rewrite seq_length; auto). rewrite seq_nth in H by auto.
  cbn [option_map] in H. match type of H with Some ?x = Some ?y => assert (E : y = x) by congruence; rewrite E; clear H E end.
  intros n. rewrite filter_In, in_seq. split.
  - intros [[_ H1] H2]. assert (Hn : n < length (x :: g)) by (simpl in *; lia). split; auto.
    rewrite (nth_gval _ _ Hn) in H2. apply Nat.eqb_eq in H2. auto.
  - intros [Hn <-]. split; [lia|]. rewrite (nth_gval _ _ Hn). apply Nat.eqb_refl.
Qed.
Lemma group_sets_lt g n : n < length g -> gval g n < length (group_sets g).
Proof.
  intros Hn. unfold group_sets. destruct g as [|x g]; [simpl in Hn; lia|]. rewrite map_length, seq_length.
  assert (gval (x :: g) n <= list_max (x :: g)); [|lia].
  pose proof (proj1 (list_max_le (x :: g) (list_max (x :: g))) (le_n _)) as Hf. rewrite Forall_forall in Hf. apply Hf.
  unfold gval. apply nth_In; auto.
Qed.
Lemma group_sets_length g : g <> [] -> exists n, n < length g /\ S (gval g n) = length (group_sets g).
Proof.
  intros Hne. assert (H : exists n, n < length g /\ gval g n = list_max g).
  { clear -Hne. induction g as [|x g IH]; [congruence|]. destruct g as [|y g].
    - exists 0. simpl. split; [lia|]. unfold gval; simpl. lia.
    - destruct IH as (n & Hn & E); [congruence|]. assert (El : list_max (x :: y :: g) = Nat.max x (list_max (y :: g))) by reflexivity.
      rewrite El. destruct (Nat.max_spec x (list_max (y :: g))) as [[_ ->]|[_ ->]].
      + exists (S n). split; [simpl in *; lia|]. rewrite <- E. reflexivity.
      + exists 0. split; [simpl; lia|reflexivity]. }
  destruct H as (n & Hn & E). exists n. split; auto. rewrite E. unfold group_sets. destruct g; [congruence|]. rewrite map_length, seq_length. reflexivity.
Qed.

Lemma upd_all s : forall (new : list nat) m, (forall n, In n s -> n < length new) ->
  let r := fold_left (fun new n => upd_nth n (fun _ => m) new) s new in
  length r = length new /\ (forall n, In n s -> nth_error r n = Some m) /\ (forall n, ~ In n s -> nth_error r n = nth_error new n).
Proof.
  induction s as [|a s IH]; intros new m Hlt; cbn [fold_left].
  - split; auto. split; [intros n []|auto].
  - assert (Ha : a < length new) by (apply Hlt; simpl; auto).
    destruct (IH (upd_nth a (fun _ => m) new) m) as (A1 & A2 & A3).
    { intros n Hn. rewrite upd_nth_length. apply Hlt; simpl; auto. }
    rewrite upd_nth_length in A1. split; auto. split.
    + intros n [->|Hn]; [|auto]. destruct (in_dec Nat.eq_dec n s) as [Hi|Hi]; auto. rewrite A3 by auto.
      rewrite nth_error_upd_nth. rewrite Nat.eqb_refl. rewrite (nth_gval _ _ Ha). reflexivity.
    + intros n Hn. rewrite A3 by (simpl in Hn; tauto). rewrite nth_error_upd_nth.
      destruct (Nat.eqb_spec a n); auto. subst. simpl in Hn; tauto.
Qed.

Lemma NoDup_app_inv {A} (l1 l2 : list A) : NoDup (l1 ++ l2) -> NoDup l1 /\ NoDup l2 /\ forall x, In x l1 -> ~ In x l2.
Proof.
  induction l1 as [|a l1 IH]; simpl; intros H.
  - split; [constructor|]. split; [auto|]. intros x [].
  - inversion H as [|? ? H1 H2]; subst. destruct (IH H2) as (A1 & A2 & A3). rewrite in_app_iff in H1.
    split; [constructor; tauto|]. split; auto. intros x [->|Hx]; [tauto|apply A3; auto].
Qed.
Lemma NoDup_app {A} (l1 l2 : list A) : NoDup l1 -> NoDup l2 -> (forall x, In x l1 -> ~ In x l2) -> NoDup (l1 ++ l2).
Proof.
  induction l1 as [|a l1 IH]; simpl; intros H1 H2 H3; auto. inversion H1; subst. constructor.
  - rewrite in_app_iff. intros [H|H]; [tauto|]. eapply H3; eauto.
  - apply IH; auto.
Qed.

Lemma label_ok C : forall new m, NoDup (concat C) -> (forall n, In n (concat C) -> n < length new) ->
  let r := fold_left label_one C (new, m) in
  length (fst r) = length new /\ snd r = m + length C /\
  (forall k s n, nth_error C k = Some s -> In n s -> nth_error (fst r) n = Some (m + k)) /\
  (forall n, ~ In n (concat C) -> nth_error (fst r) n = nth_error new n).
Proof.
  induction C as [|s C IH]; intros new m Hn Hlt; cbn [fold_left].
  - simpl. split; auto. split; [lia|]. split; [intros [|k]; discriminate|auto].
  - simpl concat in *. apply NoDup_app_inv in Hn as (N1 & N2 & N3).
    cbv zeta. change (label_one (new, m) s) with (fold_left (fun new n => upd_nth n (fun _ => m) new) s new, S m).
    destruct (upd_all s new m) as (A1 & A2 & A3); [intros n Hi; apply Hlt, in_or_app; auto|].
    set (new1 := fold_left _ s new) in *.
    destruct (IH new1 (S m)) as (B1 & B2 & B3 & B4); auto.
    { intros n Hi. rewrite A1. apply Hlt, in_or_app; auto. }
    split; [lia|]. split; [rewrite B2; simpl; lia|]. split.
    + intros [|k] s' n E Hi; simpl in E.
      * inversion E; subst s'. rewrite B4 by auto. rewrite A2 by auto. f_equal; lia.
      * rewrite (B3 k s' n E Hi). f_equal; lia.
    + intros n Hi. rewrite B4, A3; auto; intros H; apply Hi, in_or_app; auto.
Qed.

Lemma Permutation_ins {A} `{Ord A} (n : A) s : ~ In n s -> Permutation (ins n s) (n :: s).
Proof.
  induction s as [|a s IH]; simpl; intros Hn; auto. destruct (cmp n a) eqn:E; auto.
  - apply cmp_eq in E. subst. tauto.
  - rewrite IH by tauto. apply perm_swap.
Qed.

Section Refine.
  Variable o : hash_oracle.
  Variable nodes : list dnode.
  Variable en : list (nat * nat).
  Hypothesis Ho : oracle_ok o.
  Hypothesis Hranges : forall i nd, nth_error nodes i = Some nd -> ranges_ok nd.
  Hypothesis Htarget : forall i nd r j, nth_error nodes i = Some nd -> In (r, j) nd -> j < length nodes.

  Definition key (g : list nat) (n : nat) : ckey :=
    match nth_error nodes n with Some nd => match compress g nd with Ok k => k | _ => [] end | None => [] end.
  (** transition to a group *)
  Definition gnext (g : list nat) (n : nat) (c : N) : option nat := option_map (gval g) (dnext nodes n c).

  Lemma key_ok g n : length g = length nodes -> n < length nodes ->
    exists nd, nth_error nodes n = Some nd /\ compress g nd = Ok (key g n) /\ canonical (key g n) /\
      (forall c, lookup c (key g n) = gnext g n c) /\ (forall r v, In (r, v) (key g n) -> exists j, j < length nodes /\ gval g j = v).
  Proof.
    intros Hg Hn. destruct (nth_error nodes n) as [nd|] eqn:E; [|apply nth_error_None in E; lia].
    destruct (compress_ok g nd) as (k & Ek & Hc & Hl & Hv).
    - eapply Hranges; eauto.
    - intros r j Hin. rewrite Hg. eapply Htarget; eauto.
    - exists nd. split; auto. unfold key. rewrite E, Ek. split; auto. split; auto. split.
      + intros c. rewrite Hl. unfold gnext, dnext, cval. rewrite E. reflexivity.
      + intros r v Hin. destruct (Hv _ _ Hin) as (r' & j & Hj & <-). exists j. split; auto. eapply Htarget; eauto.
  Qed.

  Lemma add_split_perm probe k n l : ~ In n (flat_map snd l) -> Permutation (flat_map snd (add_split probe k n l)) (n :: flat_map snd l).
  Proof.
    induction l as [|[k' s] l IH]; simpl; intros Hn; auto. rewrite in_app_iff in Hn.
    destruct (probe k k' && key_eq k k'); simpl.
    - rewrite Permutation_ins by tauto. reflexivity.
    - rewrite IH by tauto. symmetry. apply Permutation_middle.
  Qed.
  Lemma add_split_ne probe k n l : Forall (fun e => snd e <> []) l -> Forall (fun e => snd e <> []) (add_split probe k n l).
  Proof.
    induction l as [|[k' s] l IH]; simpl; intros Hf.
    - repeat constructor. discriminate.
    - inversion Hf; subst. destruct (probe k k' && key_eq k k'); constructor; auto. simpl. intros Ex. assert (Hin : In n (ins n s)) by (apply In_ins; auto). rewrite Ex in Hin. destruct Hin.
  Qed.
  Lemma add_split_len probe k n l : length l <= length (add_split probe k n l) /\ 1 <= length (add_split probe k n l).
  Proof. induction l as [|[k' s] l IH]; simpl; [lia|]. destruct (probe k k' && key_eq k k'); simpl; lia. Qed.

  Definition splits (g : list nat) (sp : list (ckey * list nat)) : Prop :=
    NoDup (map fst sp) /\ forall k s n, In (k, s) sp -> In n s -> key g n = k.

  Lemma key_eq_refl k : key_eq k k = true.
  Proof. induction k as [|[r v] k IH]; simpl; auto. rewrite N.eqb_refl, Nat.eqb_refl, IH. reflexivity. Qed.

  Lemma add_split_keys it n0 k n l : (forall x, In x (map fst (add_split (o_probe o it n0) k n l)) -> x = k \/ In x (map fst l)).
  Proof.
    induction l as [|[k' s] l IH]; simpl; intros x; [intuition|].
    destruct (o_probe o it n0 k k' && key_eq k k'); simpl; intuition. apply IH in H0. intuition.
  Qed.
  Lemma add_split_splits it g n l : honest o -> splits g l -> splits g (add_split (o_probe o it n) (key g n) n l).
  Proof.
    intros Hh. induction l as [|[k' s] l IH]; intros [H1 H2]; cbn [add_split].
    - split; [repeat constructor; simpl; tauto|]. intros k s m [E|[]] Hm. inversion E; subst. destruct Hm as [<-|[]]. reflexivity.
    - simpl in H1. inversion H1 as [|? ? Hk Hn]; subst.
      destruct (o_probe o it n (key g n) k' && key_eq (key g n) k') eqn:E.
      + apply andb_true_iff in E as [E1 E2]. assert (key g n = k') as <- by (eapply Hh; eauto). split; [simpl; auto|].
        intros k s' m [Ex|Hin] Hm; [|eapply H2; simpl; eauto]. inversion Ex; subst. apply In_ins in Hm as [->|Hm]; auto. eapply H2; simpl; eauto.
      + destruct IH as [A1 A2]; [split; auto; intros k s' m Hin Hm; eapply H2; simpl; eauto|]. split.
        * simpl. constructor; auto. intros Hin. apply add_split_keys in Hin as [->|Hin]; auto.
          rewrite (oo_probe o Ho), key_eq_refl in E. discriminate.
        * intros k s' m [Ex|Hin] Hm; [|eauto]. inversion Ex; subst. eapply H2; simpl; eauto.
  Qed.

  Lemma split_set_ok it gi g set : length g = length nodes -> NoDup set -> (forall n, In n set -> n < length nodes) ->
    exists sp, split_set o it gi nodes g set = Ok sp /\ Permutation (flat_map snd sp) set /\ Forall (fun e => snd e <> []) sp /\
      (set <> [] -> 1 <= length sp) /\ (set = [] -> sp = []) /\ (honest o -> splits g sp).
  Proof.
    intros Hg Hn Hlt. unfold split_set.
    assert (G : forall l, NoDup l -> (forall n, In n l -> n < length nodes) ->
      exists sp, foldM (split_one o it nodes g) l [] = Ok sp /\ Permutation (flat_map snd sp) l /\ Forall (fun e => snd e <> []) sp /\
        (l <> [] -> 1 <= length sp) /\ (l = [] -> sp = []) /\ (honest o -> splits g sp)).
    { clear set Hn Hlt. induction l as [|n l IH] using rev_ind; intros Hn Hlt.
      - exists []. simpl. split; auto. split; auto. split; auto. split; [congruence|]. split; auto. intros _. split; [constructor|]. intros k s n [].
      - apply NoDup_app_inv in Hn as (N1 & _ & N3).
        destruct IH as (sp & E & Hp & Hne & _ & _ & Hh); auto. { intros m Hm. apply Hlt, in_or_app; auto. }
        rewrite foldM_app, E. cbn [bind foldM]. unfold split_one.
        destruct (key_ok g n Hg) as (nd & End & Ek & _). { apply Hlt, in_or_app; simpl; auto. }
        rewrite End. cbn [of_opt bind]. rewrite Ek. cbn [bind].
        exists (add_split (o_probe o it n) (key g n) n sp). split; auto.
        assert (Hnn : ~ In n (flat_map snd sp)).
        { intros Hin. apply (Permutation_in _ Hp) in Hin. apply (N3 n Hin). simpl; auto. }
        split.
        + rewrite add_split_perm by auto. rewrite Hp. apply Permutation_cons_append.
        + split; [apply add_split_ne; auto|]. split; [intros _; apply add_split_len|]. split; [destruct l; discriminate|].
          intros Hh'. apply add_split_splits; auto. }
    assert (Hp := oo_set o Ho it gi set).
    destruct (G (o_set o it gi set)) as (sp & E & Hq & Hne & H1 & H2 & H3).
    - eapply Permutation_NoDup; [apply Permutation_sym|]; eauto.
    - intros n Hi. apply Hlt. eapply Permutation_in; eauto.
    - exists sp. split; auto. split; [etransitivity; eauto|]. split; auto. split; [|split; auto].
      + intros Hs. apply H1. intros Ex. rewrite Ex in Hp. apply Permutation_nil in Hp. congruence.
      + intros ->. apply H2. apply Permutation_nil, Permutation_sym; auto.
  Qed.

  Definition nonempty {A} (l : list A) : bool := match l with [] => false | _ => true end.
  Definition ngroups (g : list nat) : nat := length (filter nonempty (group_sets g)).

  Lemma group_sets_NoDup g k s : nth_error (group_sets g) k = Some s -> NoDup s.
  Proof.
    unfold group_sets. destruct g as [|x g]; [destruct k; discriminate|]. intros H. apply nth_error_In in H.
    apply in_map_iff in H as (k' & <- & _). apply NoDup_filter, seq_NoDup.
  Qed.

  (** the groups [a ..] one after the other *)
  Lemma groups_fold it g : length g = length nodes -> forall sets a,
    (forall k s, nth_error sets k = Some s -> NoDup s /\ forall n, In n s <-> n < length nodes /\ gval g n = a + k) ->
    forall new mx upd, length new = length nodes ->
    exists C upd', foldM (group_step o it nodes g) (combine (seq a (length sets)) sets) (new, mx, upd) =
                   Ok (fst (fold_left label_one C (new, mx)), snd (fold_left label_one C (new, mx)), upd') /\
      NoDup (concat C) /\ (forall n, In n (concat C) <-> n < length nodes /\ a <= gval g n < a + length sets) /\
      Forall (fun s => s <> []) C /\
      (forall s i j, In s C -> In i s -> In j s -> gval g i = gval g j) /\
      length (filter nonempty sets) <= length C /\
      (upd' = false -> upd = false /\ length C = length (filter nonempty sets) /\
                       (forall s i j, In s C -> In i s -> j < length nodes -> gval g i = gval g j -> In j s)) /\
      (upd' = true -> upd = true \/ length (filter nonempty sets) < length C) /\
      (honest o -> forall s i j, In s C -> In i s -> (In j s <-> j < length nodes /\ gval g i = gval g j /\ key g i = key g j)).
  Proof.
    intros Hg. induction sets as [|s sets IH]; intros a Hsets new mx upd Hnew.
    - exists [], upd. simpl. split; auto. split; [constructor|]. split; [intros n; split; [tauto|lia]|]. split; auto.
      split; [intros s i j []|]. split; auto. split; [intros ->; split; auto; split; auto; intros s i j []|]. split; [auto|]. intros _ s i j [].
    - simpl length. cbn [seq combine foldM].
      destruct (Hsets 0 s eq_refl) as [Hnd Hs]. replace (a + 0) with a in Hs by lia.
      destruct (split_set_ok it a g s Hg Hnd) as (sp & Esp & Hp & Hne & Hl1 & Hl0 & Hh); [intros n Hn; apply Hs in Hn; tauto|].
      unfold group_step at 1. cbn [fst snd]. rewrite Esp. cbn [bind].
      pose proof (oo_split o Ho it a sp) as Hop. set (sp' := o_split o it a sp) in *.
      set (C0 := map snd sp').
      assert (Hc0 : concat C0 = flat_map snd sp') by (unfold C0; rewrite flat_map_concat_map; auto).
      assert (Hpc : Permutation (concat C0) s) by (rewrite Hc0, <- Hp; apply Permutation_flat_map; auto).
      assert (HND0 : NoDup (concat C0)) by (eapply Permutation_NoDup; [apply Permutation_sym, Hpc|auto]).
      assert (HIn0 : forall n, In n (concat C0) <-> n < length nodes /\ gval g n = a).
      { intros n. rewrite <- Hs. split; apply Permutation_in; auto. apply Permutation_sym; auto. }
      destruct (fold_left label_one C0 (new, mx)) as [new1 mx1] eqn:E1.
      assert (Hlen1 : length new1 = length nodes).
      { destruct (label_ok C0 new mx HND0) as (L1 & _).
        - intros n Hn. apply HIn0 in Hn. lia.
        - rewrite E1 in L1. simpl in L1. lia. }
      destruct (IH (S a)) with (new := new1) (mx := mx1) (upd := upd || Nat.ltb 1 (length sp)) as (C1 & upd' & EC & A1 & A2 & A3 & A4 & A5 & A6 & A7 & A8); auto.
      { intros k s' Hk. destruct (Hsets (S k) s' Hk) as [B1 B2]. split; auto. intros n. rewrite B2. replace (a + S k) with (S a + k) by lia. tauto. }
      exists (C0 ++ C1), upd'. cbv beta iota. cbn [bind]. rewrite EC. rewrite fold_left_app, E1. split; auto.
      assert (HlenC0 : length C0 = length sp) by (unfold C0; rewrite map_length; apply Permutation_length; auto).
      assert (HC0 : forall s0, In s0 C0 <-> exists k, In (k, s0) sp).
      { intros s0. unfold C0. rewrite in_map_iff. split.
        - intros ([k s1] & <- & Hin). exists k. eapply Permutation_in; eauto.
        - intros (k & Hin). exists (k, s0). split; auto. eapply Permutation_in; [apply Permutation_sym; eauto|auto]. }
      assert (HC0n : forall s0 i, In s0 C0 -> In i s0 -> i < length nodes /\ gval g i = a).
      { intros s0 i Hs0 Hi. apply HIn0. apply in_concat. eauto. }
      assert (HC1n : forall s0 i, In s0 C1 -> In i s0 -> i < length nodes /\ S a <= gval g i < S a + length sets).
      { intros s0 i Hs0 Hi. apply A2. apply in_concat. eauto. }
      split; [|split; [|split; [|split; [|split; [|split; [|split]]]]]].
      + rewrite concat_app. apply NoDup_app; auto. intros n Hn Hn1. apply HIn0 in Hn. apply A2 in Hn1. lia.
      + intros n. rewrite concat_app, in_app_iff, HIn0, A2. split.
        * intros [[H1 H2]|[H1 H2]]; split; auto; lia.
        * intros [H1 H2]. destruct (Nat.eq_dec (gval g n) a); [left|right]; split; auto; lia.
      + apply Forall_app. split; auto. apply Forall_forall. intros s0 Hs0. apply HC0 in Hs0 as [k Hk].
        rewrite Forall_forall in Hne. apply (Hne _ Hk).
      + intros s0 i j Hs0 Hi Hj. apply in_app_or in Hs0 as [Hs0|Hs0]; [|eauto].
        destruct (HC0n _ _ Hs0 Hi), (HC0n _ _ Hs0 Hj). congruence.
      + rewrite app_length. simpl. destruct s as [|x s]; simpl; [lia|]. assert (1 <= length sp) by (apply Hl1; discriminate). lia.
      + intros Eu. destruct (A6 Eu) as (U1 & U2 & U3). apply orb_false_iff in U1 as [U0 U1]. apply Nat.ltb_ge in U1. split; auto.
        assert (Hlsp : length C0 = if nonempty s then 1 else 0).
        { destruct s as [|x s]; simpl.
          - rewrite (Hl0 eq_refl) in HlenC0. auto.
          - assert (1 <= length sp) by (apply Hl1; discriminate). lia. }
        split; [rewrite app_length; simpl; destruct (nonempty s); simpl; lia|].
        intros s0 i j Hs0 Hi Hj Hij. apply in_app_or in Hs0 as [Hs0|Hs0]; [|eauto].
        destruct (HC0n _ _ Hs0 Hi) as [_ Ei]. assert (Hj0 : In j (concat C0)) by (apply HIn0; split; auto; congruence).
        destruct C0 as [|c0 [|c1 C0]]; simpl in *.
        * tauto.
        * destruct Hs0 as [<-|[]]. rewrite app_nil_r in Hj0. auto.
        * exfalso. destruct (nonempty s); lia.
      + intros Eu. destruct (A7 Eu) as [U|U].
        * apply orb_true_iff in U as [U|U]; auto. right. apply Nat.ltb_lt in U. rewrite app_length. simpl. destruct (nonempty s); simpl; lia.
        * right. rewrite app_length. simpl. destruct s as [|x s]; simpl; [lia|]. assert (1 <= length sp) by (apply Hl1; discriminate). lia.
      + intros Hhon s0 i j Hs0 Hi. apply in_app_or in Hs0 as [Hs0|Hs0]; [|apply A8; auto].
        destruct (HC0n _ _ Hs0 Hi) as [Hi0 Ei]. destruct (Hh Hhon) as [K1 K2]. pose proof Hs0 as Hs0'. apply HC0 in Hs0' as [k Hk]. split.
        * intros Hj. destruct (HC0n _ _ Hs0 Hj) as [Hj0 Ej]. split; auto. split; [congruence|].
          rewrite (K2 _ _ _ Hk Hi), (K2 _ _ _ Hk Hj). reflexivity.
        * intros (Hj & Ej & Ekey). assert (Hjc : In j (concat C0)) by (apply HIn0; split; auto; congruence).
          apply in_concat in Hjc as (s1 & Hs1 & Hj1). apply HC0 in Hs1 as [k1 Hk1].
          assert (k1 = k) by (rewrite <- (K2 _ _ _ Hk1 Hj1), <- (K2 _ _ _ Hk Hi); auto). subst k1.
          assert (s1 = s0); [|subst; auto].
          clear -K1 Hk Hk1. induction sp as [|[k' s'] sp IH]; simpl in *; [tauto|]. inversion K1 as [|? ? H1 H2]; subst.
          destruct Hk as [E|Hk], Hk1 as [E1|Hk1]; try (inversion E; subst); try (inversion E1; subst); auto.
          -- exfalso. apply H1. apply (in_map fst) in Hk1. auto.
          -- exfalso. apply H1. apply (in_map fst) in Hk. auto.
  Qed.
End Refine.
