(** The iterator delivers longest matches. *)
From Verif Require Import Lib Hir NfaModel NfaProofs DfaModel DfaEdges DfaProofs MinModel TokModel TokSpec.

Lemma skipn_skipn {A} x y : forall l : list A, skipn x (skipn y l) = skipn (x + y) l.
Proof.
  induction y as [|y IH]; intros l; [rewrite Nat.add_0_r; reflexivity|].
  rewrite Nat.add_succ_r. destruct l; simpl; [apply skipn_nil|apply IH].
Qed.

Section Iter.
  Context {E T : Type}.
  Variable t : tokenizer E T.
  Variable f : T -> N.

  (** the state after a word, and the pattern accepted there *)
  Definition tok_run (w : word) : option nat := drun (tk_goto t) (tk_begin t) w.
  Definition tok_accepts (w : word) (p : nat) : Prop := exists n, tok_run w = Some n /\ aget Nat.eqb n (tk_end t) = Some p.

  Record tok_ok : Prop := {
    to_begin : tk_begin t < length (tk_goto t);
    to_target : forall i nd c j, nth_error (tk_goto t) i = Some nd -> lookup c nd = Some j -> j < length (tk_goto t);
    to_maker : forall n p, aget Nat.eqb n (tk_end t) = Some p -> p < length (tk_makers t)
  }.

  Definition pend (s : titer) : list T := ti_queue s ++ ti_iter s.

  Lemma pop_pend s : match pop s with
                     | Some (x, s') => pend s = x :: pend s' /\ ti_iter s' = skipn (1 - length (ti_queue s)) (ti_iter s) /\ length (ti_queue s') = length (ti_queue s) - 1
                     | None => pend s = [] end.
  Proof.
    destruct s as [it [|x q]]; unfold pop, pend; simpl.
    - destruct it; simpl; auto.
    - rewrite Nat.sub_0_r. auto.
  Qed.

  (** scanning state after [done] items *)
  Record sinv (s0 : titer) (sc : scan) (done : list T) : Prop := {
    si_split : pend s0 = done ++ pend (sc_src sc);
    si_items : sc_items sc = done;
    si_chars : sc_chars sc = map f done;
    si_i : sc_i sc = length done;
    si_run : tok_run (map f done) = Some (sc_node sc);
    si_lt : sc_node sc < length (tk_goto t);
    si_pat : match sc_pat sc with
             | Some p => sc_len sc <= length done /\ tok_accepts (map f (firstn (sc_len sc) done)) p /\
                         forall k p', sc_len sc < k <= length done -> ~ tok_accepts (map f (firstn k done)) p'
             | None => forall k p', k <= length done -> ~ tok_accepts (map f (firstn k done)) p'
             end;
    si_iter : ti_iter (sc_src sc) = skipn (length done - length (ti_queue s0)) (ti_iter s0);
    si_q : length (ti_queue (sc_src sc)) = length (ti_queue s0) - length done
  }.

  (** the loop has finished after looking at [seen] items *)
  Record sfinal (s0 : titer) (sc : scan) (seen : list T) : Prop := {
    sf_split : pend s0 = seen ++ pend (sc_src sc);
    sf_items : sc_items sc = seen;
    sf_chars : sc_chars sc = map f seen;
    sf_pat : match sc_pat sc with
             | Some p => longest tok_accepts f (pend s0) (sc_len sc) p /\ sc_len sc <= length seen
             | None => nothing tok_accepts f (pend s0)
             end;
    sf_alive : forall m, m < length seen -> tok_run (map f (firstn m (pend s0))) <> None;
    sf_dead : length seen = length (pend s0) \/ tok_run (map f (firstn (length seen) (pend s0))) = None;
    sf_iter : ti_iter (sc_src sc) = skipn (length seen - length (ti_queue s0)) (ti_iter s0);
    sf_q : length (ti_queue (sc_src sc)) = length (ti_queue s0) - length seen
  }.

  Lemma tok_run_app u v n : tok_run u = Some n -> tok_run (u ++ v) = drun (tk_goto t) n v.
  Proof. intros H. unfold tok_run in *. rewrite drun_app, H. reflexivity. Qed.
  Lemma tok_run_dead u v : tok_run u = None -> tok_run (u ++ v) = None.
  Proof. intros H. unfold tok_run in *. rewrite drun_app, H. reflexivity. Qed.
  Lemma run_prefix u v : tok_run (u ++ v) <> None -> tok_run u <> None.
  Proof. intros H E1. apply H. apply tok_run_dead; auto. Qed.

  Hypothesis Ht : tok_ok.

  Lemma firstn_snoc (l : list T) x k : k <= length l -> firstn k (l ++ [x]) = firstn k l.
  Proof. intros H. rewrite firstn_app. replace (k - length l) with 0 by lia. simpl. apply app_nil_r. Qed.
  Lemma firstn_all_app (l l' : list T) k : k <= length l -> firstn k (l ++ l') = firstn k l.
  Proof. intros H. rewrite firstn_app. replace (k - length l) with 0 by lia. simpl. apply app_nil_r. Qed.

  Lemma scan_step_ok s0 sc done : sinv s0 sc done ->
    match scan_step t f sc with
    | inl sc' => exists x, sinv s0 sc' (done ++ [x])
    | inr r => exists sc' seen, r = Ok sc' /\ sfinal s0 sc' seen
    end.
  Proof.
    intros [I1 I2 I3 I4 I5 I6 I7 I8 I9]. unfold scan_step. pose proof (pop_pend (sc_src sc)) as Hp.
    destruct (pop (sc_src sc)) as [[x src]|].
    - destruct Hp as (Hp & Hi & Hq).
      assert (Hsplit : pend s0 = (done ++ [x]) ++ pend src) by (rewrite <- app_assoc; simpl; congruence).
      assert (Hiter : ti_iter src = skipn (length (done ++ [x]) - length (ti_queue s0)) (ti_iter s0)).
      { rewrite Hi, I8, skipn_skipn. f_equal. rewrite app_length. cbn [length]. lia. }
      assert (Hql : length (ti_queue src) = length (ti_queue s0) - length (done ++ [x])) by (rewrite app_length; simpl; lia).
      assert (Halive : forall m, m < length (done ++ [x]) -> tok_run (map f (firstn m (pend s0))) <> None).
      { intros m Hm. rewrite app_length in Hm. simpl in Hm. rewrite I1, firstn_all_app by lia.
        apply (run_prefix _ (map f (skipn m done))). rewrite <- map_app, firstn_skipn. congruence. }
      unfold next_node. destruct (nth_error (tk_goto t) (sc_node sc)) as [nd|] eqn:End; [|apply nth_error_None in End; lia].
      cbn [of_opt bind]. destruct (lookup (f x) nd) as [n|] eqn:El.
      + assert (Hrun : tok_run (map f (done ++ [x])) = Some n).
        { rewrite map_app. rewrite (tok_run_app _ _ _ I5). cbn [List.map drun]. unfold dnext. rewrite End, El. reflexivity. }
        assert (Hlt : n < length (tk_goto t)) by (eapply to_target; eauto).
        unfold accept_index. destruct (aget Nat.eqb n (tk_end t)) as [p|] eqn:Ea; exists x.
        * split; cbn [sc_src sc_items sc_chars sc_i sc_node sc_pat sc_len]; auto.
          -- congruence.
          -- rewrite I3, map_app. reflexivity.
          -- rewrite I4, app_length. simpl. lia.
          -- rewrite I4. rewrite app_length. cbn [length]. split; [lia|]. split.
             ++ replace (S (length done)) with (length (done ++ [x])) by (rewrite app_length; simpl; lia). rewrite firstn_all. exists n. auto.
             ++ intros k p' Hk. lia.
        * split; cbn [sc_src sc_items sc_chars sc_i sc_node sc_pat sc_len]; auto.
          -- congruence.
          -- rewrite I3, map_app. reflexivity.
          -- rewrite I4, app_length. simpl. lia.
          -- assert (Hno : forall p', ~ tok_accepts (map f (done ++ [x])) p').
             { intros p' (n' & Hn' & Ha). rewrite Hrun in Hn'. inversion Hn'; subst. congruence. }
             rewrite app_length. cbn [length]. destruct (sc_pat sc) as [p|].
             ++ destruct I7 as (P1 & P2 & P3). split; [lia|]. split; [rewrite firstn_snoc by lia; auto|].
                intros k p' Hk. destruct (Nat.eq_dec k (S (length done))) as [->|Hne].
                ** replace (S (length done)) with (length (done ++ [x])) by (rewrite app_length; simpl; lia). rewrite firstn_all. auto.
                ** rewrite firstn_snoc by lia. apply P3. lia.
             ++ intros k p' Hk. destruct (Nat.eq_dec k (S (length done))) as [->|Hne].
                ** replace (S (length done)) with (length (done ++ [x])) by (rewrite app_length; simpl; lia). rewrite firstn_all. auto.
                ** rewrite firstn_snoc by lia. apply I7. lia.
      + assert (Hrun : tok_run (map f (done ++ [x])) = None).
        { rewrite map_app. rewrite (tok_run_app _ _ _ I5). cbn [List.map drun]. unfold dnext. rewrite End, El. reflexivity. }
        assert (Hno : forall k p', length done < k -> ~ tok_accepts (map f (firstn k (pend s0))) p').
        { intros k p' Hk (n' & Hn' & _). rewrite Hsplit, firstn_app, map_app in Hn'. rewrite firstn_all2 in Hn' by (rewrite app_length; simpl; lia).
          rewrite (tok_run_dead _ _ Hrun) in Hn'. discriminate. }
        eexists _, (done ++ [x]). split; [reflexivity|]. split; simpl; auto.
        * congruence.
        * rewrite I3, map_app. reflexivity.
        * destruct (sc_pat sc) as [p|].
          -- destruct I7 as (P1 & P2 & P3). split; [|rewrite app_length; lia]. split; [rewrite I1, app_length; lia|]. split; [rewrite I1, firstn_all_app by lia; auto|].
             intros k p' Hk. destruct (Nat.le_gt_cases k (length done)) as [Hle|Hgt]; [|auto]. rewrite I1, firstn_all_app by lia. apply P3. lia.
          -- intros k p' Hk. destruct (Nat.le_gt_cases k (length done)) as [Hle|Hgt]; [|auto]. rewrite I1, firstn_all_app by lia. auto.
        * right. rewrite Hsplit, firstn_app, firstn_all, Nat.sub_diag. simpl. rewrite app_nil_r. auto.
    - eexists _, done. split; [reflexivity|].
      assert (Hall : pend s0 = done) by (rewrite I1, Hp; apply app_nil_r). split; auto.
      + rewrite Hall. destruct (sc_pat sc) as [p|].
        * destruct I7 as (P1 & P2 & P3). split; [split; auto|auto].
        * intros k p' Hk. auto.
      + intros m Hm. rewrite Hall. apply (run_prefix _ (map f (skipn m done))). rewrite <- map_app, firstn_skipn. congruence.
      + left. rewrite Hall. reflexivity.
  Qed.

  Lemma give_back_ok (r : list T) : forall len q, give_back r len q = (skipn (length r - len) r, rev (firstn (length r - len) r) ++ q).
  Proof.
    induction r as [|x r IH]; intros len q; [simpl; destruct len; reflexivity|]. cbn [give_back length].
    destruct (Nat.ltb_spec len (S (length r))) as [Hlt|Hge].
    - rewrite IH. replace (S (length r) - len) with (S (length r - len)) by lia. cbn [skipn firstn rev]. rewrite <- app_assoc. reflexivity.
    - replace (S (length r) - len) with 0 by lia. reflexivity.
  Qed.

  (** the outcome of one call: [seen] items were looked at *)
  Record next_spec (s : titer) (r : option E) (s' : titer) (seen : nat) : Prop := {
    ns_result : match r with
                | Some e => exists k p m, longest tok_accepts f (pend s) k p /\ nth_error (tk_makers t) p = Some m /\
                              e = m (map f (firstn k (pend s))) (firstn k (pend s)) /\ pend s' = skipn k (pend s)
                | None => nothing tok_accepts f (pend s) /\ pend s' = skipn seen (pend s)
                end;
    ns_seen : seen <= length (pend s);
    ns_alive : forall m, m < seen -> tok_run (map f (firstn m (pend s))) <> None;
    ns_dead : seen = length (pend s) \/ tok_run (map f (firstn seen (pend s))) = None;
    ns_pulled : ti_iter s' = skipn (seen - length (ti_queue s)) (ti_iter s)
  }.

  Theorem next_ok s : exists r s' seen, next t f s = Ok (r, s') /\ next_spec s r s' seen.
  Proof.
    unfold next. set (sc0 := mk_scan (tk_begin t) (accept_index t (tk_begin t)) 0 0 [] [] s).
    assert (H0 : sinv s sc0 []).
    { split; simpl; auto.
      - apply to_begin; auto.
      - unfold accept_index. destruct (aget Nat.eqb (tk_begin t) (tk_end t)) as [p|] eqn:Ea.
        + split; auto. split; [exists (tk_begin t); auto|]. intros k p' Hk. lia.
        + intros k p' Hk (n & Hn & Ha). replace k with 0 in Hn by lia. simpl in Hn. inversion Hn; subst. congruence.
      - rewrite Nat.sub_0_r. reflexivity. }
    assert (Hl : exists sc seen, loop (scan_step t f) (S (length (ti_queue s) + length (ti_iter s))) sc0 = Ok sc /\ sfinal s sc seen).
    { destruct (loop_bound (scan_step t f) (fun sc => exists done, sinv s sc done) (fun sc => length (pend (sc_src sc)))
                (fun r => exists sc seen, r = Ok sc /\ sfinal s sc seen)) with (fuel := S (length (ti_queue s) + length (ti_iter s))) (s := sc0) as (sc & seen & E1 & E2); eauto.
      - intros sc [done Hi]. pose proof (scan_step_ok s sc done Hi) as H. destruct (scan_step t f sc) as [sc'|r]; auto.
        destruct H as [x Hx]. split; eauto.
        assert (L1 := f_equal (@length T) (si_split _ _ _ Hi)). assert (L2 := f_equal (@length T) (si_split _ _ _ Hx)).
        rewrite !app_length in L1. rewrite !app_length in L2. cbn [length] in L2. lia.
      - simpl. unfold pend. rewrite app_length. lia. }
    destruct Hl as (sc & seen & El & [F1 F2 F3 F4 F5 F6 F7 F8]). rewrite El. cbn [bind].
    assert (Hseen : length seen <= length (pend s)) by (rewrite F1, app_length; lia).
    destruct (sc_pat sc) as [p|] eqn:Ep.
    - destruct F4 as [(L1 & L2 & L3) L4].
      assert (Hp : p < length (tk_makers t)) by (destruct L2 as (n & _ & Ha); eapply to_maker; eauto).
      destruct (nth_error (tk_makers t) p) as [m|] eqn:Em; [|apply nth_error_None in Em; lia].
      rewrite give_back_ok. cbn [of_opt bind].
      assert (R1 : rev (skipn (length (rev (sc_items sc)) - sc_len sc) (rev (sc_items sc))) = firstn (sc_len sc) seen).
      { rewrite F2, skipn_rev, rev_involutive, rev_length. f_equal. lia. }
      assert (R2 : rev (firstn (length (rev (sc_items sc)) - sc_len sc) (rev (sc_items sc))) = skipn (sc_len sc) seen).
      { rewrite F2, firstn_rev, rev_involutive, rev_length. f_equal. lia. }
      rewrite R1, R2.
      assert (Hf : firstn (sc_len sc) (pend s) = firstn (sc_len sc) seen) by (rewrite F1; apply firstn_all_app; auto).
      eexists _, _, (length seen). split; [reflexivity|]. split; auto.
      exists (sc_len sc), p, m. split; [split; auto|]. split; auto. split.
      + rewrite F3, firstn_map, Hf. reflexivity.
      + unfold pend at 1. simpl. rewrite F1. rewrite skipn_app. replace (sc_len sc - length seen) with 0 by lia. simpl. unfold pend. rewrite app_assoc. reflexivity.
    - eexists _, _, (length seen). split; [reflexivity|]. split; auto. split; auto.
      rewrite F1, skipn_app, skipn_all, Nat.sub_diag. reflexivity.
  Qed.
End Iter.
