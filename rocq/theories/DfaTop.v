(** Accepting states and warnings; the determinised automaton as a whole. *)
From Verif Require Import Lib Hir NfaPath NfaSem NfaModel NfaProofs NfaExact TokNfa DfaModel DfaEdges DfaProofs.

Section Mark.
  Variable set : list nat.
  Variable index : nat.

  Definition hit (l : list (nat * nat)) (i : nat) : Prop := exists e, In (e, i) l /\ mem e set = true.
  Definition least_hit (l : list (nat * nat)) (i : nat) : Prop := hit l i /\ forall j, hit l j -> i <= j.
  (** two consecutive hits *)
  Definition adjacent (l : list (nat * nat)) (x : end_conflict) : Prop :=
    hit l (fst x) /\ hit l (snd x) /\ snd x < fst x /\ forall j, hit l j -> ~ (snd x < j < fst x).

  Lemma mark_one_fold l en ws : StronglySorted (fun a b => snd b < snd a) l -> aget Nat.eqb index en = None ->
    let r := fold_left (mark_one set index) l (en, ws) in
    (forall k, k <> index -> aget Nat.eqb k (fst r) = aget Nat.eqb k en) /\
    (forall i, aget Nat.eqb index (fst r) = Some i <-> least_hit l i) /\
    (aget Nat.eqb index (fst r) = None -> forall i, ~ hit l i) /\
    (forall x, In x (snd r) <-> In x ws \/ adjacent l x).
  Proof.
    intros Hs Hn. induction l as [|[e i] l IH] using rev_ind.
    - simpl. split; auto. split; [|split].
      + intros i. rewrite Hn. split; [discriminate|]. intros [(e & [] & _) _].
      + intros _ i (e & [] & _).
      + intros x. split; auto. intros [|[(e & [] & _) _]]; auto.
    - apply SS_app_inv in Hs as (Hs & _ & Hlt). rewrite fold_left_app. cbn [fold_left].
      specialize (IH Hs). cbv zeta in IH. destruct (fold_left (mark_one set index) l (en, ws)) as [en1 ws1]. simpl in IH.
      destruct IH as (A1 & A2 & A3 & A4).
      assert (Hgt : forall j, hit l j -> i < j) by (intros j (e' & Hin & _); apply (Hlt (e', j) (e, i)); simpl; auto).
      assert (Hhit : forall j, hit (l ++ [(e, i)]) j <-> hit l j \/ (j = i /\ mem e set = true)).
      { intros j. unfold hit. split.
        - intros (e' & Hin & Hm). apply in_app_or in Hin as [Hin|[E|[]]]; [eauto|]. inversion E; subst; auto.
        - intros [(e' & Hin & Hm)|[-> Hm]]; [exists e'|exists e]; (split; [apply in_or_app; simpl; auto|auto]). }
      unfold mark_one. cbn [fst snd]. destruct (mem e set) eqn:Em.
      + cbn [fst snd]. split; [|split; [|split]].
        * intros k Hk. rewrite aget_aset by apply Nat.eqb_eq. destruct (Nat.eqb_spec k index); [congruence|auto].
        * intros j. rewrite aget_aset, Nat.eqb_refl by apply Nat.eqb_eq. split.
          -- intros E; inversion E; subst j. split; [apply Hhit; auto|]. intros j Hj. apply Hhit in Hj as [Hj|[-> _]]; auto. apply Hgt in Hj. lia.
          -- intros [Hj Hmin]. f_equal. apply Hhit in Hj as [Hj|[-> _]]; auto.
             assert (j <= i) by (apply Hmin, Hhit; auto). apply Hgt in Hj. lia.
        * rewrite aget_aset, Nat.eqb_refl by apply Nat.eqb_eq. discriminate.
        * intros x. assert (Hadj : adjacent (l ++ [(e, i)]) x <-> adjacent l x \/ (snd x = i /\ least_hit l (fst x))).
          { unfold adjacent, least_hit. rewrite !Hhit. split.
            - intros (H1 & H2 & H3 & H4). destruct H2 as [H2|[H2 _]].
              + left. destruct H1 as [H1|[H1 _]]; [|apply Hgt in H2; lia]. repeat split; auto. intros j Hj. apply H4, Hhit; auto.
              + right. split; auto. destruct H1 as [H1|[H1 _]]; [|lia]. split; auto. intros j Hj.
                pose proof (Hgt _ Hj). assert (~ (snd x < j < fst x)) by (apply H4, Hhit; auto). lia.
            - intros [(H1 & H2 & H3 & H4)|(H1 & H2 & H3)].
              + repeat split; auto. intros j Hj. apply Hhit in Hj as [Hj|[-> _]]; auto. apply Hgt in H2. lia.
              + split; auto. split; auto. split; [rewrite H1; auto|]. intros j Hj. apply Hhit in Hj as [Hj|[-> _]]; [|lia]. apply H3 in Hj. lia. }
          rewrite Hadj. destruct (aget Nat.eqb index en1) as [old|] eqn:Eo.
          -- rewrite in_app_iff, A4. simpl. assert (Hold := proj1 (A2 old) eq_refl). split.
             ++ intros [[H|H]|[<-|[]]]; simpl; auto.
             ++ intros [H|[H|[H1 H2]]]; auto. right. left. destruct x as [x1 x2]; simpl in *. subst x2.
                destruct Hold as [Ho1 Ho2], H2 as [H2 H3]. f_equal. apply Ho2 in H2. apply H3 in Ho1. lia.
          -- rewrite A4. split; [tauto|]. intros [H|[H|[H1 [H2 _]]]]; auto. exfalso. eapply A3; eauto.
      + assert (Hh : forall j, hit (l ++ [(e, i)]) j <-> hit l j) by (intros j; rewrite Hhit; intuition congruence).
        cbn [fst snd]. split; auto. split; [|split].
        * intros j. rewrite A2. unfold least_hit. rewrite Hh. split; intros [H1 H2]; (split; [auto|]); intros k Hk; apply H2, Hh; auto.
        * intros E j Hj. apply Hh in Hj. eapply A3; eauto.
        * intros x. rewrite A4. unfold adjacent. rewrite !Hh. split; (intros [H|(H1 & H2 & H3 & H4)]; [auto|right; repeat split; auto]); intros j Hj; apply H4, Hh; auto.
  Qed.
End Mark.

(** pattern [i]'s end node is in the set *)
Definition ehit (ends set : list nat) (i : nat) : Prop := exists e, nth_error ends i = Some e /\ In e set.

Lemma combine_nth (ends : list nat) (e i : nat) : In (e, i) (rev (combine ends (seq 0 (length ends)))) <-> nth_error ends i = Some e.
Proof.
  rewrite <- in_rev. split.
  - intros Hin. apply In_nth_error in Hin as [k Hk].
    assert (G : forall (l : list nat) a k e i, nth_error (combine l (seq a (length l))) k = Some (e : nat, i : nat) -> i = a + k /\ nth_error l k = Some (e : nat)).
    { clear. induction l as [|x l IH]; intros a k e i H; [destruct k; discriminate|]. destruct k; simpl in *.
      - inversion H; subst. split; auto; lia.
      - apply IH in H as [-> H]. split; auto; lia. }
    apply G in Hk as [-> Hk]. auto.
  - intros Hn. assert (G : forall (l : list nat) a i (e : nat), nth_error l i = Some e -> In (e, a + i) (combine l (seq a (length l)))).
    { clear. induction l as [|x l IH]; intros a i e H; [destruct i; discriminate|]. destruct i; simpl in *.
      - inversion H; subst. left. f_equal; lia.
      - right. replace (a + S i) with (S a + i) by lia. auto. }
    apply (G _ 0 _ _ Hn).
Qed.
Lemma hit_ehit ends set i : hit set (rev (combine ends (seq 0 (length ends)))) i <-> ehit ends set i.
Proof.
  unfold hit, ehit. split; intros (e & H1 & H2); exists e.
  - apply combine_nth in H1. apply mem_In in H2. auto.
  - apply mem_In in H2. split; auto. apply combine_nth; auto.
Qed.
Lemma rev_sorted ends : StronglySorted (fun a b : nat * nat => snd b < snd a) (rev (combine ends (seq 0 (length ends)))).
Proof.
  generalize 0. induction ends as [|e ends IH]; intros a; simpl; [constructor|].
  apply StronglySorted_app; auto; [repeat constructor|]. intros x y Hx [<-|[]]. simpl. apply in_rev in Hx.
  destruct x as [e' i]. apply in_combine_r in Hx. apply in_seq in Hx. simpl. lia.
Qed.

Lemma mark_all_ok ends refs : NoDup (map snd refs) ->
  let r := mark_all ends refs in
  (forall k p, aget Nat.eqb k (fst r) = Some p <->
     exists s, In (s, k) refs /\ ehit ends s p /\ forall p', ehit ends s p' -> p <= p') /\
  (forall k, aget Nat.eqb k (fst r) = None -> forall s, In (s, k) refs -> forall p, ~ ehit ends s p) /\
  (forall x, In x (snd r) <-> exists s k, In (s, k) refs /\ ehit ends s (fst x) /\ ehit ends s (snd x) /\ snd x < fst x /\
       forall j, ehit ends s j -> ~ (snd x < j < fst x)) /\
  NoDup (map fst (fst r)).
Proof.
  unfold mark_all. induction refs as [|[s k] refs IH] using rev_ind; intros Hn.
  - simpl. split; [|split; [|split; [|constructor]]].
    + intros k p. split; [discriminate|intros (s & [] & _)].
    + intros k _ s [].
    + intros x. split; [tauto|intros (s & k & [] & _)].
  - rewrite map_app in Hn. simpl in Hn.
    assert (Hn1 : NoDup (map snd refs)) by (apply NoDup_remove_1 in Hn; rewrite app_nil_r in Hn; auto).
    assert (Hk : ~ In k (map snd refs)).
    { apply NoDup_remove_2 in Hn. rewrite app_nil_r in Hn. auto. }
    rewrite fold_left_app. cbn [fold_left]. specialize (IH Hn1). cbv zeta in IH.
    destruct (fold_left (mark_set ends) refs ([], [])) as [en ws]. simpl in IH. destruct IH as (A1 & A2 & A3 & A4).
    assert (Hnk : aget Nat.eqb k en = None).
    { destruct (aget Nat.eqb k en) as [p|] eqn:E; auto. apply A1 in E as (s' & Hin & _). exfalso. apply Hk. apply (in_map snd) in Hin. auto. }
    unfold mark_set. cbn [fst snd].
    pose proof (mark_one_fold s k _ en ws (rev_sorted ends) Hnk) as Hm. cbv zeta in Hm. 
    assert (Hnd : NoDup (map fst (fst (fold_left (mark_one s k) (rev (combine ends (seq 0 (length ends)))) (en, ws))))).
    { clear -A4. generalize (rev (combine ends (seq 0 (length ends)))) as l. intros l.
      revert en ws A4. induction l as [|[e i] l IH]; simpl; intros en ws A4; auto.
      unfold mark_one at 2. cbn [fst snd]. destruct (mem e s); [|auto]. apply IH. apply aset_NoDup; auto. apply Nat.eqb_eq. }
    destruct (fold_left (mark_one s k) (rev (combine ends (seq 0 (length ends)))) (en, ws)) as [en' ws']. simpl in Hm, Hnd.
    destruct Hm as (B1 & B2 & B3 & B4). simpl.
    split; [|split; [|split; auto]].
    + intros k' p. destruct (Nat.eq_dec k' k) as [->|Hne].
      * rewrite B2. unfold least_hit. setoid_rewrite hit_ehit. split.
        -- intros [H1 H2]. exists s. split; [apply in_or_app; simpl; auto|auto].
        -- intros (s' & Hin & H1 & H2). apply in_app_or in Hin as [Hin|[E|[]]].
           ++ exfalso. apply Hk. apply (in_map snd) in Hin. auto.
           ++ inversion E; subst. auto.
      * rewrite B1, A1 by auto. split; intros (s' & Hin & H); exists s'; (split; [|auto]).
        -- apply in_or_app; auto.
        -- apply in_app_or in Hin as [Hin|[E|[]]]; auto. inversion E; congruence.
    + intros k' E s' Hin p Hp. destruct (Nat.eq_dec k' k) as [->|Hne].
      * apply in_app_or in Hin as [Hin|[Ex|[]]].
        -- apply Hk. apply (in_map snd) in Hin. auto.
        -- inversion Ex; subst. apply (B3 E p). apply hit_ehit; auto.
      * rewrite B1 in E by auto. apply in_app_or in Hin as [Hin|[Ex|[]]]; [eapply A2; eauto|inversion Ex; congruence].
    + intros x. rewrite B4, A3. unfold adjacent. rewrite !hit_ehit. split.
      * intros [(s' & k' & Hin & H)|(H1 & H2 & H3 & H4)].
        -- exists s', k'. split; auto. apply in_or_app; auto.
        -- exists s, k. split; [apply in_or_app; simpl; auto|]. repeat split; auto. intros j Hj. apply H4, hit_ehit; auto.
      * intros (s' & k' & Hin & H1 & H2 & H3 & H4). apply in_app_or in Hin as [Hin|[Ex|[]]]; [left; eauto 10|].
        inversion Ex; subst. right. repeat split; auto. intros j Hj. apply H4, hit_ehit; auto.
Qed.

(** *** Specification of a table automaton for [n] patterns with languages [M] *)
Definition first_match (n : nat) (M : nat -> lang) (w : word) (p : nat) : Prop :=
  p < n /\ M p w /\ forall p', p' < p -> ~ M p' w.

Record dfa_good (n : nat) (M : nat -> lang) (d : dfa) : Prop := {
  dg_ranges : forall i nd, nth_error (d_nodes d) i = Some nd -> ranges_ok nd;
  dg_target : forall i nd r j, nth_error (d_nodes d) i = Some nd -> In (r, j) nd -> j < length (d_nodes d);
  dg_begin : d_begin d < length (d_nodes d);
  dg_reach : forall i, i < length (d_nodes d) -> exists w, drun (d_nodes d) (d_begin d) w = Some i;
  dg_accept : forall w i, drun (d_nodes d) (d_begin d) w = Some i ->
              forall p, aget Nat.eqb i (d_end d) = Some p <-> first_match n M w p;
  dg_dead : forall w, drun (d_nodes d) (d_begin d) w = None -> forall p, p < n -> ~ M p w;
  dg_keys : forall i p, In (i, p) (d_end d) -> i < length (d_nodes d) /\ p < n;
  dg_nodup : NoDup (map fst (d_end d))
}.

(** what pattern [p] of [ps] recognises *)
Definition pat_lang (ps : list hir) (p : nat) : lang := fun w => exists h, nth_error ps p = Some h /\ sem h B E w.

Definition warn_good (n : nat) (M : nat -> lang) (ws : list end_conflict) : Prop :=
  forall a b, In (a, b) ws <-> a < n /\ b < a /\ exists w, M a w /\ M b w /\ forall p, b < p < a -> ~ M p w.

Theorem dfa_of_spec ps t : tnfa_good ps t ->
  exists F nodes, forall order fuel, (forall l, Permutation (order l) l) -> F <= fuel ->
    exists en ws, dfa_of order fuel t = Ok (mk_dfa nodes 0 en, ws) /\
      dfa_good (length ps) (pat_lang ps) (mk_dfa nodes 0 en) /\ warn_good (length ps) (pat_lang ps) ws.
Proof.
  intros [Tok Tb Tcl Tlen Tnd Tlang Tsup _]. unfold dfa_of.
  destruct (eps_rec_spec _ Tcl _ Tb) as (b & Eb & _ & _). rewrite Eb. simpl.
  destruct (worklist_ok _ Tok Tcl _ Tb b Eb) as (F & st & Hf & HF).
  exists F, (ds_nodes st). intros order fuel Hord Hfuel. rewrite HF by auto. simpl.
  assert (Hp := Hord (ds_ref st)).
  assert (Hin : forall x, In x (order (ds_ref st)) <-> In x (ds_ref st)).
  { intros x. split; apply Permutation_in; auto. apply Permutation_sym; auto. }
  assert (Hnd : NoDup (map snd (order (ds_ref st)))).
  { eapply Permutation_NoDup; [apply Permutation_map, Permutation_sym, Hp|]. rewrite (df_seq _ _ _ Hf). apply seq_NoDup. }
  destruct (mark_all_ok (tn_end t) _ Hnd) as (A1 & A2 & A3 & A4).
  destruct (mark_all (tn_end t) (order (ds_ref st))) as [en ws]. simpl in A1, A2, A3, A4.
  exists en, ws. split; auto.
  assert (Hlang : forall w s, reaches (tn_nodes t) (tn_begin t) w s -> forall p, ehit (tn_end t) s p <-> p < length ps /\ pat_lang ps p w).
  { intros w s [_ Hr] p. unfold ehit, pat_lang. split.
    - intros (e & He & Hs). apply Hr in Hs. assert (Hlt : p < length ps) by (rewrite <- Tlen; eapply nth_error_Some_lt; eauto).
      split; auto. destruct (nth_error ps p) as [h|] eqn:Eh; [|apply nth_error_None in Eh; lia].
      exists h. split; auto. eapply Tlang; eauto.
    - intros (Hlt & h & Hh & Hs). destruct (nth_error (tn_end t) p) as [e|] eqn:Ee; [|apply nth_error_None in Ee; lia].
      exists e. split; auto. apply Hr. eapply Tlang; eauto. }
  split.
  - split; simpl.
    + intros i nd. apply (final_ranges _ Tok Tcl _ Tb); auto.
    + intros i nd r j Hn Hrj. destruct (final_set _ _ Tb st i Hf) as [s Hs]; [eapply nth_error_Some_lt; eauto|].
      destruct (df_nodes _ _ _ Hf s i Hs) as (nd' & Hn' & H2). rewrite Hn in Hn'. inversion Hn'; subst nd'.
      destruct (Forall2_In_r _ _ _ _ H2 Hrj) as (x & _ & [_ Hx]). eapply final_idx; eauto.
    + destruct (df_begin _ _ _ Hf) as (s & Hs & _). eapply final_idx; eauto.
    + intros i Hi. apply (final_reach _ Tok Tcl _ Tb); auto.
    + intros w i Hrun p. pose proof (final_run _ Tok Tcl _ Tb st w Hf) as Hr. rewrite Hrun in Hr. destruct Hr as (s & Hs & Hr).
      rewrite A1. unfold first_match. split.
      * intros (s' & Hs' & H1 & H2). apply Hin in Hs'.
        assert (s' = s) as ->.
        { clear -Hf Hs Hs'. destruct Hf as [_ Hq _ _ _].
          assert (Hn : NoDup (map snd (ds_ref st))) by (rewrite Hq; apply seq_NoDup). clear Hq.
          induction (ds_ref st) as [|[s0 j] l IH]; simpl in *; [tauto|]. inversion Hn; subst.
          destruct Hs as [E1|H1'], Hs' as [E2|H2'].
          - congruence.
          - inversion E1; subst. exfalso. apply H1. apply (in_map snd) in H2'. auto.
          - inversion E2; subst. exfalso. apply H1. apply (in_map snd) in H1'. auto.
          - auto. }
        apply (Hlang _ _ Hr) in H1 as [H1 H1']. split; auto. split; auto. intros p' Hp' Hm.
        assert (p <= p') by (apply H2, (Hlang _ _ Hr); split; [lia|auto]). lia.
      * intros (Hlt & Hm & Hmin). exists s. split; [apply Hin; auto|]. split; [apply (Hlang _ _ Hr); auto|].
        intros p' Hp'. apply (Hlang _ _ Hr) in Hp' as [_ Hp']. destruct (Nat.le_gt_cases p p'); auto. exfalso. eapply Hmin; eauto.
    + intros w Hrun p Hlt (h & Hh & Hs). pose proof (final_run _ Tok Tcl _ Tb st w Hf) as Hr. rewrite Hrun in Hr.
      destruct (nth_error (tn_end t) p) as [e|] eqn:Ee; [|apply nth_error_None in Ee; lia].
      apply (Hr e). eapply Tlang; eauto.
    + intros i p Hip. apply (aget_NoDup Nat.eqb Nat.eqb_eq) in Hip; auto. apply A1 in Hip as (s & Hs & (e & He & _) & _).
      apply Hin in Hs. split; [eapply final_idx; eauto|]. rewrite <- Tlen. eapply nth_error_Some_lt; eauto.
    + auto.
  - intros a c. rewrite A3. simpl. split.
    + intros (s & k & Hs & H1 & H2 & H3 & H4). apply Hin in Hs. destruct (df_sets _ _ _ Hf _ _ Hs) as (_ & w & Hr).
      apply (Hlang _ _ Hr) in H1 as [H1 H1'], H2 as [H2 H2']. split; auto. split; auto. exists w. split; auto. split; auto.
      intros p Hpp Hm. apply (H4 p); auto. apply (Hlang _ _ Hr). split; auto. lia.
    + intros (Ha & Hca & w & Hw1 & Hw2 & Hw3). pose proof (final_run _ Tok Tcl _ Tb st w Hf) as Hr.
      destruct (drun (ds_nodes st) 0 w) as [k|].
      * destruct Hr as (s & Hs & Hr). exists s, k. split; [apply Hin; auto|]. split; [apply (Hlang _ _ Hr); auto|].
        split; [apply (Hlang _ _ Hr); split; [lia|auto]|]. split; auto. intros j Hj Hb. apply (Hlang _ _ Hr) in Hj as [_ Hj]. eapply Hw3; eauto.
      * exfalso. destruct Hw1 as (h & Hh & Hs).
        destruct (nth_error (tn_end t) a) as [e|] eqn:Ee; [|apply nth_error_None in Ee; lia].
        apply (Hr e). eapply Tlang; eauto.
Qed.
