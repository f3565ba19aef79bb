(** * Termination of [parse] with error rules

    Unwinding the stack puts tokens back, so the position in the input is no measure of progress.  The
    measure is a vector over the positions of the input: behind the reading position the number of stack
    symbols that are recorded to start there, from the reading position on "not yet read".  A shift and a
    recovery that unwinds the stack make it smaller in the lexicographic order, nothing makes it bigger. *)
From Coq Require Import List Arith Lia Bool Sorted Wf_nat.
From Verif Require Import Lib Grammar LrModel LrSpec LrSets LrStates LrNew LrTop LrMono ParseModel Trees ParseSpec ParseInv ParseComplete GramFacts ParseTerm ParseTop ParseMore ParseCover.
Import ListNotations.

(** ** Vectors *)
Definition vle (f g : nat -> nat) : Prop := forall i, f i <= g i.
Definition vlt (m : nat) (f g : nat -> nat) : Prop := exists h, h < m /\ (forall i, i < h -> f i <= g i) /\ Nat.lt (f h) (g h).
Lemma vle_vlt m f g k : vle f g -> vlt m g k -> vlt m f k.
Proof.
  intros H (h & Hh & H1 & H2). exists h. split; auto. split.
  - intros i Hi. specialize (H i). specialize (H1 i Hi). lia.
  - specialize (H h). unfold Nat.lt in *. lia.
Qed.
Lemma vlt_vle m f g k : vlt m f g -> vle g k -> vlt m f k.
Proof.
  intros (h & Hh & H1 & H2) H. exists h. split; auto. split.
  - intros i Hi. specialize (H i). specialize (H1 i Hi). lia.
  - specialize (H h). unfold Nat.lt in *. lia.
Qed.
Lemma vlt_wf m : well_founded (vlt m).
Proof.
  induction m as [|m IH]; [intros f; constructor; intros g (h & Hh & _); lia|].
  assert (G : forall n f0, Acc (vlt m) f0 -> forall f, f 0 <= n -> vle (fun i => f (S i)) f0 -> Acc (vlt (S m)) f).
  { induction n as [n IHn] using (well_founded_induction lt_wf). induction 1 as [f0 _ IHf]. intros f H0 Hf.
    constructor. intros g (h & Hh & H1 & H2). destruct h as [|h].
    - unfold Nat.lt in H2. apply (IHn (g 0) ltac:(lia) (fun i => g (S i)) (IH _)); [lia|intros i; auto].
    - apply (IHf (fun i => g (S i))); [|specialize (H1 0 ltac:(lia)); lia|intros i; auto].
      eapply vlt_vle; [|exact Hf]. exists h. split; [lia|]. split; [intros i Hi; apply H1; lia|exact H2]. }
  intros f. apply (G (f 0) (fun i => f (S i)) (IH _)); [lia|intros i; auto].
Qed.

Section RecTerm.
  Context {N T E : Type} (tix : T -> nat).
  Variables (s : syntax N T E) (P : parser N T E) (ws : list warning) (ss : nat) (w : list T).
  Hypothesis Hm : made s P ws ss.
  Notation invat := (inv_at tix (gram s) (sx_start s) ss P w).
  Notation step := (parse_step tix P).
  Notation rules := (gram s).
  Notation start := (sx_start s).
  Let p := pr_tab P.
  Let rs := augment rules start ss.
  Let sr := length rules.

  (** the stack symbols that are recorded to start at [i] *)
  Definition starts_at (i : nat) (e : entry N) : bool := match e with ENon _ j => Nat.eqb i j | ETok _ j => Nat.eqb i j | _ => false end.
  Definition cnt (i : nat) (es : list (entry N)) : nat := length (filter (starts_at i) es).
  Definition vec (st : pstate N T) (pos : nat) (i : nat) : nat :=
    if i mod 2 =? 0 then (if i / 2 <? pos then 0 else 1) else (if i / 2 <? pos then cnt (i / 2) (map snd (ps_stack st)) else 0).

  Lemma vec_even st pos i : vec st pos (2 * i) = if i <? pos then 0 else 1.
  Proof.
    unfold vec. replace ((2 * i) mod 2) with 0 by (symmetry; rewrite Nat.mul_comm; apply Nat.mod_mul; lia).
    replace (2 * i / 2) with i by (symmetry; rewrite Nat.mul_comm; apply Nat.div_mul; lia). reflexivity.
  Qed.
  Lemma vec_odd st pos i : vec st pos (S (2 * i)) = if i <? pos then cnt i (map snd (ps_stack st)) else 0.
  Proof.
    unfold vec. replace (S (2 * i)) with (1 + i * 2) by lia. rewrite Nat.mod_add, Nat.div_add by lia. reflexivity.
  Qed.
  Lemma parity i : (exists j, i = 2 * j) \/ (exists j, i = S (2 * j)).
  Proof. destruct (Nat.Even_or_Odd i) as [[j Hj]|[j Hj]]; [left|right]; exists j; lia. Qed.

  Lemma vec_le st st' pos : (forall i, i < pos -> cnt i (map snd (ps_stack st')) <= cnt i (map snd (ps_stack st))) -> vle (vec st' pos) (vec st pos).
  Proof.
    intros H i. destruct (parity i) as [[j ->]|[j ->]]; [rewrite !vec_even; auto|]. rewrite !vec_odd. destruct (j <? pos) eqn:Ej; auto. apply H. apply Nat.ltb_lt. auto.
  Qed.
  (** the token at the reading position has been passed *)
  Lemma vec_pass st st' pos : (forall i, i < pos -> cnt i (map snd (ps_stack st')) <= cnt i (map snd (ps_stack st))) -> pos < length w ->
    vlt (2 * length w) (vec st' (S pos)) (vec st pos).
  Proof.
    intros H Hp. exists (2 * pos). split; [lia|]. split.
    - intros i Hi. destruct (parity i) as [[j ->]|[j ->]].
      + rewrite !vec_even. rewrite (proj2 (Nat.ltb_lt j (S pos))) by lia. lia.
      + rewrite !vec_odd. rewrite (proj2 (Nat.ltb_lt j (S pos))), (proj2 (Nat.ltb_lt j pos)) by lia. apply H. lia.
    - rewrite !vec_even. rewrite (proj2 (Nat.ltb_lt pos (S pos))), (proj2 (Nat.ltb_ge pos pos)) by lia. unfold Nat.lt. lia.
  Qed.
  (** the reading position has gone back to a symbol that is no longer there *)
  Lemma vec_back st st' pos h : (forall i, i <= h -> cnt i (map snd (ps_stack st')) <= cnt i (map snd (ps_stack st))) ->
    cnt h (map snd (ps_stack st')) < cnt h (map snd (ps_stack st)) -> h < pos -> pos <= length w ->
    vlt (2 * length w) (vec st' (S h)) (vec st pos).
  Proof.
    intros H H1 Hh Hp. exists (S (2 * h)). split; [lia|]. split.
    - intros i Hi. destruct (parity i) as [[j ->]|[j ->]].
      + rewrite !vec_even. rewrite (proj2 (Nat.ltb_lt j (S h))) by lia. lia.
      + rewrite !vec_odd. rewrite (proj2 (Nat.ltb_lt j (S h))), (proj2 (Nat.ltb_lt j pos)) by lia. apply H. lia.
    - rewrite !vec_odd. rewrite (proj2 (Nat.ltb_lt h (S h))), (proj2 (Nat.ltb_lt h pos)) by lia. exact H1.
  Qed.

  Lemma cnt_app i l1 l2 : cnt i (l1 ++ l2) = cnt i l1 + cnt i l2.
  Proof. unfold cnt. rewrite filter_app, app_length. auto. Qed.
  Lemma cnt_cons i e l : cnt i (e :: l) = (if starts_at i e then 1 else 0) + cnt i l.
  Proof. unfold cnt. simpl. destruct (starts_at i e); auto. Qed.
  Lemma cnt_rev i l : cnt i (rev l) = cnt i l.
  Proof. induction l as [|e l IH]; auto. simpl. rewrite cnt_app, !cnt_cons, IH. unfold cnt. simpl. destruct (starts_at i e); lia. Qed.
  Lemma cnt_first i es d v : i < d -> cnt i [ENon v (first_index es d)] <= cnt i es.
  Proof.
    intros Hd. induction es as [|e es IH].
    - unfold cnt. simpl. rewrite (proj2 (Nat.eqb_neq i d)) by lia. auto.
    - rewrite (cnt_cons i e es). destruct e as [v0 j|k j|lo hi|]; cbn [first_index starts_at].
      + rewrite cnt_cons. unfold cnt at 1. cbn [starts_at filter length]. lia.
      + rewrite cnt_cons. unfold cnt at 1. cbn [starts_at filter length]. lia.
      + lia.
      + lia.
  Qed.

  (** the position recovery goes back to *)
  Lemma fold_head es : forall h e, fst (fold_left upd es (h, e)) = h \/ cnt (fst (fold_left upd es (h, e))) es > 0.
  Proof.
    induction es as [|x es IH]; intros h e; cbn [fold_left]; [auto|].
    rewrite (surjective_pairing (upd (h, e) x)). destruct (IH (fst (upd (h, e) x)) (snd (upd (h, e) x))) as [H|H].
    - rewrite H. destruct x as [v i|k i|lo hi|]; simpl; auto; right; rewrite cnt_cons; simpl; rewrite Nat.eqb_refl; lia.
    - right. rewrite cnt_cons. lia.
  Qed.

  Notation ends_in := (ends step).
  Definition stops (st : pstate N T) : Prop := exists r, ends_in st r /\ r <> OutOfFuel.
  Lemma stops_step st st' : step st = inl st' -> stops st' -> stops st.
  Proof. intros H (r & Hr & Hn). exists r. split; auto. eapply reaches_ends; [apply reaches_step; eauto|eauto]. Qed.
  Lemma stops_end st r : step st = inr r -> r <> OutOfFuel -> stops st.
  Proof. intros H Hn. exists r. split; auto. apply ends_step. auto. Qed.

  (** what a turn does to the measure *)
  Definition turned (st st' : pstate N T) (pos pos' : nat) : Prop := vlt (2 * length w) (vec st' pos') (vec st pos).
  Definition kept (st st' : pstate N T) (pos pos' : nat) : Prop := vle (vec st' pos') (vec st pos).

  (** the position after a recovery; at the end of the input nothing is popped *)
  Lemma rec_pos st g ts pos st' g' ts' pos' t i buf cur stk' rc back head ehead pb : invat st g ts pos -> invat st' g' ts' pos' -> ps_syms st' = ps_syms (ps_read tix st) ->
    ps_buf (ps_read tix st) = (t, i) :: buf ->
    recover p (match t with TEoi => true | _ => false end) (ps_rec (ps_read tix st)) false (ps_state (ps_read tix st)) i i (ps_stack st) = Some (cur, stk', rc, back, head, ehead) ->
    put_back tix (ps_syms (ps_read tix st)) head i = Ok pb -> ps_buf st' = (if back then tl (pb ++ (t, i) :: buf) else pb ++ (t, i) :: buf) ->
    pos' = (if back then S (Nat.min head pos) else pos) /\ (t = TEoi -> back = false).
  Proof.
    intros Hinv Hinv' Hsyms Eb Erec Epb Ebf.
    destruct (read_inv tix _ _ _ _ _ (md_len _ _ _ _ Hm) _ _ _ _ Hinv) as [Hread (t0 & i0 & buf0 & Eb0 & Hla)].
    pose proof (inv_pos _ _ _ _ _ _ _ _ _ _ Hread) as Hpos. pose proof (inv_pos _ _ _ _ _ _ _ _ _ _ Hinv') as Hpos'. rewrite Hsyms in Hpos'.
    assert (Hlen : ~ at_end st' -> length (ps_buf st') = length (ps_syms (ps_read tix st)) - pos') by (intros Hn; rewrite <- Hsyms; eapply pos_buf; eauto).
    assert (Hlen0 : ~ at_end (ps_read tix st) -> length (ps_buf (ps_read tix st)) = length (ps_syms (ps_read tix st)) - pos) by (intros Hn; eapply pos_buf; eauto).
    rewrite Eb in Eb0. injection Eb0 as Et0 <- <-. subst t0.
    destruct (recover_pops P _ _ _ _ _ _ _ _ _ _ _ _ _ Erec) as (popped & Epop & Hf & Hb1 & Hb2).
    destruct Hla as [(x & Hx & Ht & -> & Hlt & Ebuf)|(Ht & -> & Hp & -> & Hit & Hl0)].
    + assert (Hn : ~ at_end (ps_read tix st)) by (unfold at_end; rewrite Eb, Ht; discriminate).
      specialize (Hlen0 Hn). rewrite Eb in Hlen0. cbn [length] in Hlen0.
      rewrite put_back_ok in Epb by lia. injection Epb as <-.
      assert (Hbl : length (toks tix head (firstn (pos - head) (skipn head (ps_syms (ps_read tix st)))) ++ (t, pos) :: buf) = length (ps_syms (ps_read tix st)) - Nat.min head pos).
      { assert (G : forall l i, length (toks tix i l) = length l) by (induction l; simpl; auto). rewrite app_length, G, firstn_length, skipn_length. cbn [length]. lia. }
      assert (Hn' : ~ at_end st').
      { assert (G : forall l i, Forall (fun c => fst c <> TEoi) (toks tix i l)) by (clear; induction l; simpl; constructor; auto; discriminate).
        assert (HF : Forall (fun c => fst c <> TEoi) (ps_buf st')).
        { rewrite Ebf, Ht, Ebuf. assert (HF : Forall (fun c => fst c <> TEoi) (toks tix head (firstn (pos - head) (skipn head (ps_syms (ps_read tix st)))) ++ (TSym (tix x), pos) :: toks tix (S pos) (skipn (S pos) (ps_syms (ps_read tix st))))).
          { apply Forall_app. split; [apply G|]. constructor; [discriminate|apply G]. }
          destruct back; auto. revert HF. match goal with |- Forall _ ?l -> _ => generalize l end. intros [|c0 rest] HF; [constructor|]. inversion HF; auto. }
        unfold at_end. intros He. rewrite He in HF. inversion HF as [|? ? Hc]. apply Hc. reflexivity. }
      specialize (Hlen Hn').
      assert (Ep : pos' = if back then S (Nat.min head pos) else pos).
      { rewrite Ebf in Hlen. destruct back.
        - assert (Htl : forall (A : Type) (l : list A), length (tl l) = length l - 1) by (intros A0 [|]; simpl; lia). rewrite Htl, Hbl in Hlen. lia.
        - rewrite Hbl in Hlen. destruct (Hb1 eq_refl) as [-> _]. cbn [map fold_left] in Hf. injection Hf as -> _. lia. }
      split; [exact Ep|congruence].
    + rewrite Ht in Erec.
      assert (Hback : back = false).
      { destruct back; auto. exfalso. pose proof (recover_ok tix (gram s) (sx_start s) ss P w (length (ps_syms (ps_read tix st))) true (ps_rec (ps_read tix st)) (ps_stack st) g ts false (ps_state (ps_read tix st)) 0 0 pos) as R.
        pose proof (inv_stk _ _ _ _ _ _ _ _ _ _ Hread) as Hstk. rewrite read_stack in Hstk. specialize (R Hstk (inv_state _ _ _ _ _ _ _ _ _ _ Hread) ltac:(lia) (inv_low _ _ _ _ _ _ _ _ _ _ Hread)).
        unfold p in Erec. rewrite Erec in R. destruct R as (? & ? & ? & ? & _ & _ & _ & _ & _ & _ & _ & R); [intros [?|?]; discriminate|]. specialize (R eq_refl). discriminate. }
      subst back. destruct (Hb1 eq_refl) as [-> _]. cbn [map fold_left app] in *. injection Hf as -> ->. unfold put_back in Epb. simpl in Epb. injection Epb as <-. cbn [app] in Ebf.
      assert (He' : at_end st') by (unfold at_end; rewrite Ebf, Ht; reflexivity).
      assert (Ep : pos' = pos).
      { destruct (inv_buf _ _ _ _ _ _ _ _ _ _ Hinv') as [Hx|(_ & _ & Hx)]; [unfold at_end in He'; rewrite He' in Hx; destruct (skipn pos' (ps_syms st')); discriminate|]. rewrite Hx, Hsyms, Hp. auto. }
      split; [exact Ep|auto].
  Qed.

  Lemma measure_step st g ts pos st' g' ts' pos' : invat st g ts pos -> step st = inl st' -> invat st' g' ts' pos' ->
    match act p (ps_state (ps_read tix st)) (la_at tix w pos) with
    | Ok (Some (Shift _)) => turned st st' pos pos'
    | Ok (Some (Reduce _)) => kept st st' pos pos' /\ pos' = pos
    | Ok None => turned st st' pos pos' \/ (kept st st' pos pos' /\ pos' = pos /\ exists ers, aget eqb (ps_state (ps_read tix st)) (p_errors p) = Some ers)
    | _ => False
    end.
  Proof.
    intros Hinv Hs Hinv'. destruct (step_shape tix P st st' Hs) as [Hsh Hsyms].
    destruct (read_inv tix _ _ _ _ _ (md_len _ _ _ _ Hm) _ _ _ _ Hinv) as [Hread (t0 & i0 & buf0 & Eb0 & Hla)].
    assert (Hlw : length (ps_syms (ps_read tix st)) <= length w) by (rewrite (inv_input _ _ _ _ _ _ _ _ _ _ Hread), app_length; lia).
    assert (Et : t0 = la_at tix w pos).
    { unfold la_at. destruct Hla as [(x & -> & -> & _)|(-> & _ & -> & _)]; auto. rewrite (proj2 (nth_error_None _ _)); auto. }
    pose proof (inv_pos _ _ _ _ _ _ _ _ _ _ Hread) as Hpos. pose proof (inv_pos _ _ _ _ _ _ _ _ _ _ Hinv') as Hpos'. rewrite Hsyms in Hpos'.
    assert (Hlen : ~ at_end st' -> length (ps_buf st') = length (ps_syms (ps_read tix st)) - pos') by (intros Hn; rewrite <- Hsyms; eapply pos_buf; eauto).
    assert (Hlen0 : ~ at_end (ps_read tix st) -> length (ps_buf (ps_read tix st)) = length (ps_syms (ps_read tix st)) - pos) by (intros Hn; eapply pos_buf; eauto).
    destruct Hsh as [k i buf Eb Est Ebf Eu|i buf Eb [q Hq]|t i buf k r q v Eb Ea Er Hl Est Ebf Eu|t i buf cur stk' rc back head ehead pb Eb Ea Erec Epb Est Ebf Eu].
    - (* shift *)
      rewrite Eb in Eb0. injection Eb0 as Et0 <- <-. rewrite <- Et, <- Et0. destruct Hla as [(x & Hx & Ht & -> & Hlt & Ebuf)|(Hx & _)]; [|congruence].
      assert (Hn : ~ at_end (ps_read tix st)) by (unfold at_end; rewrite Eb; discriminate).
      assert (Hn' : ~ at_end st').
      { unfold at_end. rewrite Ebf, Ebuf. destruct (skipn (S pos) (ps_syms (ps_read tix st))); discriminate. }
      assert (Ep : pos' = S pos) by (specialize (Hlen Hn'); specialize (Hlen0 Hn); rewrite Ebf in Hlen; rewrite Eb in Hlen0; simpl in Hlen0; lia). subst pos'.
      assert (Hpass : turned st st' pos (S pos)).
      { apply vec_pass; [|lia]. intros j Hj. rewrite Est. cbn [map snd]. rewrite cnt_cons. simpl. rewrite (proj2 (Nat.eqb_neq j pos)) by lia. lia. }
      unfold parse_step in Hs. cbv zeta in Hs. rewrite Eb in Hs. fold p in Hs.
      destruct (act p (ps_state (ps_read tix st)) (TSym k)) as [[[q|k'|]|]| |]; auto; try discriminate.
      + exfalso. destruct (nth_error (p_rules p) k') as [r|]; [|discriminate]. destruct (_ <? _); [discriminate|]. destruct (reduce_args _ _ _) as [args| |]; try discriminate.
        destruct (nth_error (pr_gens P) k') as [g0|]; [|discriminate]. destruct (g0 args) as [v|e|]; try discriminate. destruct (aget eqb _ (p_goto p)) as [row|]; [|discriminate].
        destruct (aget eqb (r_lhs r) row); [|discriminate]. injection Hs as <-. cbn [ps_buf] in Ebf. apply (f_equal (@length _)) in Ebf. simpl in Ebf. lia.
      + destruct (ps_stack (ps_read tix st)) as [|[q [v i'|k0 i'|lo hi|]] l]; discriminate.
    - exfalso. rewrite Eb in Eb0. injection Eb0 as <- <- <-. pose proof (inv_state _ _ _ _ _ _ _ _ _ _ Hread) as Hstate.
      destruct (act_state (gram s) (sx_start s) ss P (md_can _ _ _ _ Hm) g _ TEoi Hstate) as (d & Hd & Hdec). rewrite Hd in Hq. injection Hq as ->.
      destruct Hdec as [Hw _]. exact (wants_no_eoi _ _ _ (md_eoi _ _ _ _ Hm) _ Hw).
    - (* reduce *)
      rewrite Eb in Eb0. injection Eb0 as Et0 <- <-. rewrite <- Et, <- Et0. fold p in Ea. rewrite Ea. subst t.
      assert (Ep : pos' = pos).
      { destruct Hla as [(x & Hx & Ht & -> & Hlt & Ebuf)|(Ht & -> & Hp & -> & Hit & Hl0)].
        - assert (Hn : ~ at_end (ps_read tix st)) by (unfold at_end; rewrite Eb, Ht; discriminate).
          assert (Hn' : ~ at_end st') by (unfold at_end; rewrite Ebf; exact Hn). specialize (Hlen Hn'). specialize (Hlen0 Hn). rewrite Ebf in Hlen. lia.
        - assert (Hn' : at_end st') by (unfold at_end; rewrite Ebf, Eb, Ht; reflexivity). destruct (inv_buf _ _ _ _ _ _ _ _ _ _ Hinv') as [Hx|(_ & _ & Hx)]; [|rewrite Hx, Hsyms, Hp; auto].
          unfold at_end in Hn'. rewrite Hn' in Hx. destruct (skipn pos' (ps_syms st')); discriminate. }
      split; [|auto]. subst pos'. apply vec_le. intros j Hj. rewrite Est. cbn [map snd].
      rewrite <- (firstn_skipn (length (r_rhs r)) (ps_stack st)) at 3. rewrite map_app, cnt_app. rewrite map_rev.
      set (es := map snd (firstn (length (r_rhs r)) (ps_stack st))).
      rewrite (cnt_cons j (ENon v _)). pose proof (cnt_first j (rev es) (length (ps_syms (ps_read tix st))) v ltac:(lia)) as Hc. rewrite cnt_rev in Hc. rewrite cnt_cons in Hc. unfold cnt at 1 in Hc. simpl in Hc. simpl. lia.
    - (* recovery *)
      rewrite Eb in Eb0. injection Eb0 as Et0 <- <-. rewrite <- Et, <- Et0. fold p in Ea. rewrite Ea. subst t.
      destruct (recover_pops P _ _ _ _ _ _ _ _ _ _ _ _ _ Erec) as (popped & Epop & Hf & Hb1 & Hb2).
      assert (Hcnt : forall j, cnt j (map snd (ps_stack st)) = cnt j (map snd popped) + cnt j (map snd (ps_stack st'))).
      { intros j. rewrite Epop, Est, map_app, cnt_app. cbn [map snd]. rewrite (cnt_cons j (EErr _ _)). simpl. auto. }
      assert (Hlocal : back = false -> exists ers, aget eqb (ps_state (ps_read tix st)) (p_errors p) = Some ers).
      { intros ->. destruct (Hb1 eq_refl) as [-> _]. clear - Erec Epop. simpl in Epop. subst stk'. revert Erec. fold p.
        destruct (ps_stack st) as [|[q e] l]; cbn [recover].
        - destruct (negb _ || negb false); [|discriminate]. destruct (aget eqb (ps_state (ps_read tix st)) (p_errors p)) as [ers|]; [eauto|discriminate].
        - destruct (if negb _ || negb false then _ else _) as [rc0|] eqn:Eh.
          + intros _. revert Eh. destruct (negb _ || negb false); [|discriminate]. destruct (aget eqb (ps_state (ps_read tix st)) (p_errors p)) as [ers|]; [eauto|discriminate].
          + intros H. exfalso. destruct e; apply (recover_pops P) in H as (pp & _ & _ & Hx & _); destruct (Hx eq_refl); discriminate. }
      destruct (rec_pos st g ts pos st' g' ts' pos' t0 i buf cur stk' rc back head ehead pb Hinv Hinv' Hsyms Eb Erec Epb Ebf) as [Ep Hpe].
      destruct Hla as [(x & Hx & Ht & -> & Hlt & Ebuf)|(Ht & -> & Hp & -> & Hit & Hl0)].
      + destruct back.
        * left. rewrite Ep. unfold turned. destruct (Nat.lt_ge_cases head pos) as [Hh|Hh].
          -- rewrite Nat.min_l by lia. apply vec_back; auto; try lia; [intros j _; rewrite Hcnt; lia|]. rewrite Hcnt.
             destruct (fold_head (map snd popped) pos pos) as [G|G]; rewrite <- Hf in G; cbn [fst] in G; lia.
          -- rewrite Nat.min_r by lia. apply vec_pass; [|lia]. intros j _. rewrite Hcnt. lia.
        * right. split; [|auto]. rewrite Ep. apply vec_le. intros j _. rewrite Hcnt. lia.
      + rewrite (Hpe Ht) in Ep. rewrite (Hpe Ht) in Hlocal. right. split; [|auto]. rewrite Ep. apply vec_le. intros j _. rewrite Hcnt. lia.
  Qed.

  (** ** The automaton *)
  Hypothesis Hwf : forall t, well_founded (rstep rules start ss t).
  Hypothesis Hp : productive rules.
  Hypothesis Hadj : forall u v, ~ der rules (NT start) (u ++ TErr :: TErr :: v).

  Definition viable (g : list sym) (t : term) : Prop := exists z, fst_of z TEoi = t /\ astar rules start ss (g, z) ([NT start], []).
  Lemma viable_reduce g k t d r : complete rs sr g k t -> k <> sr -> nth_error rs k = Some r -> g = d ++ r_rhs r -> viable (d ++ [NT (r_lhs r)]) t.
  Proof.
    intros Hc Hk Hr Eg. destruct Hc as (r0 & Hr0 & Hv). assert (r0 = r) by congruence. subst r0.
    destruct (machine_cont rules start ss (md_fresh _ _ _ _ Hm) Hp _ _ Hv Hk) as (r1 & d1 & z & E1 & E2 & E3 & E4). simpl in *. assert (r1 = r) by (unfold rs in *; congruence). subst r1.
    rewrite firstn_all, Eg in E2. apply app_inv_tail in E2. subst d1. exists z. auto.
  Qed.
  Lemma viable_decides g t : viable g t -> ~ decides rs sr p g t None.
  Proof.
    intros (z & Ez & Ha) Hd. inversion Ha as [c Ec|c c1 c2 Hs _]; subst.
    - simpl in Hd. destruct Hd as (_ & Hd & _). apply Hd. split; auto. apply accepting_start.
    - eapply stuck_step; eauto.
  Qed.

  Lemma valid_syms g it : valid rs sr g it -> forall X, In X g -> exists r, In r rs /\ In X (r_rhs r).
  Proof.
    induction 1 as [|g k q b r X H IH Hr HX|]; intros Y HY; [destruct HY| |auto]. apply in_app_or in HY as [HY|[<-|[]]]; auto.
    exists r. split; eapply nth_error_In; eauto.
  Qed.
  Lemma no_two_errors g : ~ wants rs sr (g ++ [TM TErr]) (TM TErr).
  Proof.
    intros (k & q & b & r & Hv & Hr & Hq). destruct (valid_rewr rules start ss (md_fresh _ _ _ _ Hm) (md_eoi _ _ _ _ Hm) _ _ Hv) as (r' & Hr' & z & _ & _ & Hz & Hcase). cbn [i_rule i_pos] in *.
    assert (r' = r) by (unfold rs in *; congruence). subst r'.
    destruct Hcase as [->|(r0 & A1 & A2 & A3)].
    { rewrite augment_start in Hr'. injection Hr' as <-. simpl in Hq. destruct q as [|[|q]]; discriminate. }
    assert (Hks : k <> sr).
    { intros ->. rewrite augment_start in Hr'. injection Hr' as <-. simpl in Hq. destruct q as [|[|q]]; discriminate. }
    assert (Hir : In r rules) by (rewrite augment_old in Hr' by auto; eapply nth_error_In; eauto).
    rewrite (skipn_nth_cons _ _ _ Hq) in A3. rewrite <- app_assoc in A3.
    assert (Hst : exists w0, der rules (NT start) w0).
    { destruct (ders_all rules (r_rhs r0)) as [w0 Hw0]; [intros X HX; apply (Hp r0); auto|]. exists w0. rewrite <- A2. constructor; auto. }
    destruct (ders_all rules g) as [u Hu].
    { intros X HX. destruct (valid_syms _ _ Hv X) as (r1 & B1 & B2); [apply in_or_app; auto|]. apply in_app_or in B1 as [B1|[<-|[]]]; [apply (Hp r1); auto|].
      destruct B2 as [<-|[]]. exact Hst. }
    destruct (ders_all rules (skipn (S q) (r_rhs r) ++ z)) as [v Hvv].
    { intros X HX. apply in_app_or in HX as [HX|HX].
      - apply (Hp r); auto. rewrite <- (firstn_skipn (S q) (r_rhs r)). apply in_or_app. auto.
      - destruct (Hz X HX) as (r1 & B1 & B2). apply (Hp r1); auto. }
    apply (Hadj u v). apply (der_aug rules start ss (md_fresh _ _ _ _ Hm)). replace (NT start) with (NT (r_lhs r0)) by congruence. constructor; [apply aug_incl; auto|].
    eapply rewr_ders; [exact A3|]. apply (der_incl rules _ (aug_incl rules start ss)). apply ders_app; auto.
    change (TErr :: TErr :: v) with ([TErr] ++ [TErr] ++ v). constructor; [constructor|]. constructor; [constructor|]. exact Hvv.
  Qed.

  (** ** The run *)
  Definition below (V : nat -> nat) : Prop := forall st g ts pos, invat st g ts pos -> vlt (2 * length w) (vec st pos) V -> stops st.

  (** what the three kinds of turns leave to do *)
  Lemma turn V : below V -> forall st g ts pos, invat st g ts pos -> vle (vec st pos) V ->
    (forall st' g' ts', invat st' g' ts' pos -> vle (vec st' pos) V -> viable g' (la_at tix w pos) -> rstep rules start ss (la_at tix w pos) g' g -> stops st') ->
    (~ decides rs sr p g (la_at tix w pos) None \/ ~ wants rs sr g (TM TErr) \/
      forall st' g' ts', invat st' (g' ++ [TM TErr]) ts' pos -> vle (vec st' pos) V -> stops st') ->
    stops st.
  Proof.
    intros HV st g ts pos Hinv Hle Hred Hrec.
    destruct (read_inv tix _ _ _ _ _ (md_len _ _ _ _ Hm) _ _ _ _ Hinv) as [Hread _].
    pose proof (inv_state _ _ _ _ _ _ _ _ _ _ Hread) as Hstate.
    destruct (act_state rules start ss P (md_can _ _ _ _ Hm) g _ (la_at tix w pos) Hstate) as (d0 & Ed0 & Hd0).
    destruct (cases tix s P ws ss w Hm _ _ _ _ Hinv) as (d & Hd & Hc).
    assert (Edd : d0 = d) by (eapply decides_det; eauto). subst d0.
    assert (Hms : forall st' g' ts' pos', step st = inl st' -> invat st' g' ts' pos' -> _) by (intros st' g' ts' pos' H1 H2; exact (measure_step st g ts pos st' g' ts' pos' Hinv H1 H2)).
    fold p in Ed0. rewrite Ed0 in Hms.
    destruct d as [[q|k|]|]; cbn [step_case] in Hc.
    - destruct Hc as (_ & _ & s' & Hs & Hi). specialize (Hms _ _ _ _ Hs Hi). eapply stops_step; [exact Hs|]. eapply HV; [exact Hi|]. eapply vlt_vle; eauto.
    - destruct Hc as [(r & _ & _ & Hs & _)|(r & dd & ts1 & ts2 & args & gen & E1 & E2 & _ & _ & _ & _ & _ & _ & _ & E9)].
      { eapply stops_end; [exact Hs|discriminate]. }
      destruct (gen args) as [v|e|].
      + destruct E9 as (s' & Hs & Hi). specialize (Hms _ _ _ _ Hs Hi). destruct Hms as [Hk _]. eapply stops_step; [exact Hs|].
        simpl in Hd. destruct Hd as (_ & Hna & Hk0 & Hcm & _).
        eapply (Hred s' _ _ Hi); auto.
        * intros i. specialize (Hk i). specialize (Hle i). lia.
        * eapply viable_reduce; eauto.
        * split; auto. exists dd, k, r. auto.
      + destruct E9 as [it Hs]. eapply stops_end; [exact Hs|discriminate].
      + eapply stops_end; [exact E9|discriminate].
    - destruct Hc as (_ & _ & _ & t & v & _ & _ & Hs). eapply stops_end; [exact Hs|discriminate].
    - destruct Hc as (_ & [(it & Hs & _)|(s' & Hs & _ & g' & ts' & ts2 & lo & hi & pos' & _ & _ & _ & _ & _ & Hi)]).
      + eapply stops_end; [exact Hs|discriminate].
      + specialize (Hms _ _ _ _ Hs Hi). eapply stops_step; [exact Hs|]. destruct Hms as [Ht|(Hk & -> & ers & Hers)].
        * eapply HV; [exact Hi|]. eapply vlt_vle; eauto.
        * destruct Hrec as [Hrec|[Hrec|Hrec]]; [contradiction| |].
          -- exfalso. apply Hrec. eapply errors_wants; eauto. apply (md_can _ _ _ _ Hm).
          -- eapply Hrec; [exact Hi|]. intros i. specialize (Hk i). specialize (Hle i). lia.
  Qed.

  Lemma stops_below V : below V -> forall st g ts pos, invat st g ts pos -> vle (vec st pos) V -> stops st.
  Proof.
    intros HV.
    assert (A : forall pos g, Acc (rstep rules start ss (la_at tix w pos)) g -> viable g (la_at tix w pos) -> forall st ts, invat st g ts pos -> vle (vec st pos) V -> stops st).
    { intros pos g Hacc. induction Hacc as [g _ IH]. intros Hvi st ts Hinv Hle. eapply (turn V HV); eauto. left. apply viable_decides. auto. }
    assert (A' : forall pos g, viable g (la_at tix w pos) -> forall st ts, invat st g ts pos -> vle (vec st pos) V -> stops st).
    { intros pos g. apply A. apply Hwf. }
    assert (B : forall pos g st ts, invat st (g ++ [TM TErr]) ts pos -> vle (vec st pos) V -> stops st).
    { intros pos g st ts Hinv Hle. eapply (turn V HV); eauto. right. left. apply no_two_errors. }
    intros st g ts pos Hinv Hle. eapply (turn V HV); eauto.
  Qed.

  Theorem stops_all st g ts pos : invat st g ts pos -> stops st.
  Proof.
    assert (G : forall V, below V).
    { intros V. induction V as [V IH] using (well_founded_induction (vlt_wf (2 * length w))). intros st0 g0 ts0 pos0 Hinv Hlt.
      eapply (stops_below (vec st0 pos0)); [apply IH; exact Hlt|exact Hinv|intros i; auto]. }
    intros Hinv. eapply (stops_below (vec st pos)); [apply G|exact Hinv|intros i; auto].
  Qed.
End RecTerm.
