(** * The lemmas behind the theorems about arbitrary iterators *)
From Coq Require Import List Arith Lia Bool NArith.
From Verif Require Import Lib Grammar LrModel LrSpec LrTop ParseModel Trees ParseSpec ParseInv ParseTop ParseMore MachProofs PullModel PullSpec.
Import ListNotations.

Section Pulls.
  Context {S T : Type} (pull : S -> res (option T * S)).
  Lemma pulls_app s l s1 l' s2 : pulls pull s l s1 -> pulls pull s1 l' s2 -> pulls pull s (l ++ l') s2.
  Proof. induction 1; intros H'; simpl; auto. econstructor; eauto. Qed.
  Lemma pulls_snoc s l s1 x s2 : pulls pull s l s1 -> pull s1 = Ok (Some x, s2) -> pulls pull s (l ++ [x]) s2.
  Proof. intros H1 H2. eapply pulls_app; eauto. econstructor; eauto. constructor. Qed.
  (** two descriptions of the same iterator *)
  Lemma pulls_le s l s1 : pulls pull s l s1 -> forall l' s2, pulls pull s l' s2 -> length l <= length l' -> exists m, l' = l ++ m /\ pulls pull s1 m s2.
  Proof.
    induction 1 as [s|s x s1 l s2 Hp Hl IH]; intros l' s3 H' Hle; [exists l'; auto|]. destruct H' as [s|s y s4 l' s5 Hp' Hl']; [simpl in Hle; lia|].
    rewrite Hp in Hp'. injection Hp' as <- <-. destruct (IH _ _ Hl') as (m & -> & Hm); [simpl in Hle; lia|]. exists m. auto.
  Qed.
  Lemma pulls_det s l s1 s2 : pulls pull s l s1 -> pulls pull s l s2 -> s1 = s2.
  Proof. intros H1 H2. destruct (pulls_le _ _ _ H1 _ _ H2 (le_n _)) as (m & E & Hm). rewrite <- (app_nil_r l) in E at 1. apply app_inv_head in E as <-. inversion Hm; auto. Qed.
End Pulls.

Section Parse.
  Context {V T E S : Type} (nix : V -> nat) (tix : T -> nat) (pull : S -> res (option T * S)) (s : syntax V T E) (P : parser V T E) (ws : list warning) (ss : nat).
  Hypothesis Hm : made s P ws ss.

  Definition retold (z : list T) (r : pstate V T + res (outcome V E * list T)) : pstate V T + res (outcome V E * list T) :=
    match r with
    | inl s' => inl (with_iter s' z)
    | inr (Ok (o, _)) => inr (Ok (o, z))
    | inr Panic => inr Panic
    | inr OutOfFuel => inr OutOfFuel
    end.

  (** a turn that does not read does not depend on the iterator *)
  Lemma step_with st z : ps_buf st <> [] -> parse_step tix P (with_iter st z) = retold z (parse_step tix P st).
  Proof.
    intros Hne.
    assert (R1 : ps_read tix (with_iter st z) = with_iter st z) by (unfold ps_read; simpl; destruct (ps_buf st); congruence).
    assert (R2 : ps_read tix st = st) by (unfold ps_read; destruct (ps_buf st); congruence).
    unfold parse_step. cbv zeta. rewrite R1, R2. cbn [with_iter ps_buf ps_state ps_stack ps_syms ps_rec ps_iter].
    destruct (ps_buf st) as [|[t i] buf]; [congruence|].
    destruct (act _ _ t) as [[[q|k|]|]| |]; auto.
    - destruct t; auto.
    - destruct (nth_error _ k) as [r|]; auto. destruct (_ <? _); auto. destruct (reduce_args _ _ _); auto. destruct (nth_error (pr_gens P) k) as [g|]; auto.
      destruct (g a) as [v|e|]; auto. destruct (aget eqb _ _) as [row|]; auto. destruct (aget eqb (r_lhs r) row); auto.
    - destruct (ps_stack st) as [|[q [v j|k j|lo hi|]] l]; auto.
    - destruct (recover _ _ _ _ _ _ _ _) as [[[[[[c st1] rc] bk] hd] eh]|]; auto. destruct (put_back _ _ _ _); auto. destruct (act _ c TErr) as [[[q|k|]|]| |]; auto.
  Qed.
  Lemma step_fill st x z : ps_buf st = [] -> parse_step tix P (with_iter st (x :: z)) = retold z (parse_step tix P (fill tix st x)).
  Proof.
    intros Hb. rewrite <- step_with by discriminate. unfold parse_step. cbv zeta.
    replace (ps_read tix (with_iter st (x :: z))) with (with_iter (fill tix st x) z) by (unfold ps_read; simpl; rewrite Hb; reflexivity).
    replace (ps_read tix (with_iter (fill tix st x) z)) with (with_iter (fill tix st x) z) by reflexivity. reflexivity.
  Qed.
  Lemma step_fill_end st : ps_buf st = [] -> parse_step tix P (with_iter st []) = parse_step tix P (fill_end st).
  Proof.
    intros Hb. unfold parse_step. cbv zeta. replace (ps_read tix (with_iter st [])) with (fill_end st) by (unfold ps_read; simpl; rewrite Hb; reflexivity).
    replace (ps_read tix (fill_end st)) with (fill_end st) by reflexivity. reflexivity.
  Qed.
  Lemma step_iter_nil st : ps_iter st = [] -> match parse_step tix P st with inl st' => ps_iter st' = [] | inr (Ok (_, rest)) => rest = [] | _ => True end.
  Proof.
    intros Hi. assert (Hr : ps_iter (ps_read tix st) = []) by (unfold ps_read; destruct (ps_buf st); auto; rewrite Hi; auto).
    unfold parse_step. cbv zeta. destruct (ps_buf (ps_read tix st)) as [|[t i] buf]; auto.
    destruct (act _ _ t) as [[[q|k|]|]| |]; auto.
    - destruct t; auto.
    - destruct (nth_error _ k) as [r|]; auto. destruct (_ <? _); auto. destruct (reduce_args _ _ _); auto. destruct (nth_error (pr_gens P) k) as [g|]; auto.
      destruct (g a) as [v|e|]; auto. destruct (aget eqb _ _) as [row|]; auto. destruct (aget eqb (r_lhs r) row); auto.
    - destruct (ps_stack (ps_read tix st)) as [|[q [v j|k j|lo hi|]] l]; auto.
    - destruct (recover _ _ _ _ _ _ _ _) as [[[[[[c st1] rc] bk] hd] eh]|]; auto. destruct (put_back _ _ _ _); auto. destruct (act _ c TErr) as [[[q|k|]|]| |]; auto.
  Qed.
  Lemma with_nil (st : pstate V T) : ps_iter st = [] -> with_iter st [] = st.
  Proof. destruct st; simpl. intros ->. reflexivity. Qed.

  (** the end of the input stays in the buffer *)
  Lemma recover_eoi p rc cur head ehead st : forall back r, recover (N := V) p true rc back cur head ehead st = Some r -> back = true -> False.
  Proof.
    revert cur head ehead. induction st as [|[q e] st IH]; intros cur head ehead back r H Hb; subst back; simpl in H; [discriminate|].
    destruct e; eapply IH; eauto.
  Qed.
  Lemma recover_eoi_here p rc cur head ehead st c st1 rc1 bk hd eh : recover (N := V) p true rc false cur head ehead st = Some (c, st1, rc1, bk, hd, eh) -> bk = false /\ hd = head.
  Proof.
    intros H. destruct st as [|[q e] st]; cbn [recover] in H.
    - destruct (_ : option (list nat)); [injection H as <- <- <- <- <- <-; auto|discriminate].
    - destruct (_ : option (list nat)) eqn:Eh in H; [injection H as <- <- <- <- <- <-; auto|]. exfalso. destruct e; eapply recover_eoi; eauto.
  Qed.
  Lemma end_kept_at w st st' : turns tix P w st -> ps_buf (ps_read tix st) = [(TEoi, 0)] -> parse_step tix P st = inl st' -> ps_buf st' = [(TEoi, 0)].
  Proof.
    intros Ht Hb. destruct (turns_inv tix s P ws ss w Hm st Ht) as (g & ts & pos & Hi).
    assert (R : ps_state (ps_read tix st) = ps_state st) by (unfold ps_read; destruct (ps_buf st); auto; destruct (ps_iter st); auto).
    unfold parse_step. cbv zeta. rewrite Hb, R.
    destruct (act_state _ _ _ _ (md_can _ _ _ _ Hm) g (ps_state st) TEoi (inv_state _ _ _ _ _ _ _ _ _ _ Hi)) as (d & Ed & Hd). rewrite Ed.
    destruct d as [[q|k|]|].
    - exfalso. destruct Hd as [Hw _]. eapply wants_no_eoi; [apply (md_eoi _ _ _ _ Hm)|exact Hw].
    - destruct (nth_error _ k) as [r|]; try discriminate. destruct (_ <? _); try discriminate. destruct (reduce_args _ _ _); try discriminate. destruct (nth_error (pr_gens P) k) as [g'|]; try discriminate.
      destruct (g' a) as [v|e|]; try discriminate. destruct (aget eqb _ _) as [row|]; try discriminate. destruct (aget eqb (r_lhs r) row); try discriminate. intros H; injection H as <-; auto.
    - destruct (ps_stack (ps_read tix st)) as [|[q [v j|k j|lo hi|]] l]; discriminate.
    - destruct (recover _ _ _ _ _ _ _ _) as [[[[[[c st1] rc] bk] hd] eh]|] eqn:Er; try discriminate. apply recover_eoi_here in Er as [-> ->].
      unfold put_back. simpl. destruct (act _ c TErr) as [[[q|k|]|]| |]; try discriminate. intros H; injection H as <-; auto.
  Qed.
  Lemma end_kept w st st' : turns tix P w st -> ps_buf st = [(TEoi, 0)] -> parse_step tix P st = inl st' -> ps_buf st' = [(TEoi, 0)].
  Proof. intros Ht Hb. apply (end_kept_at w); auto. unfold ps_read. rewrite Hb. auto. Qed.

  Lemma loop_iter_nil fuel : forall st, ps_iter st = [] -> match loop (parse_step tix P) fuel st with Ok (_, rest) => rest = [] | _ => True end.
  Proof.
    induction fuel as [|fuel IH]; intros st Hi; cbn [loop]; auto. pose proof (step_iter_nil st Hi) as H. destruct (parse_step tix P st) as [st'|[[o rest]| |]]; auto. apply IH; auto.
  Qed.
  Lemma turn_fill_end w st : turns tix P w (with_iter st []) -> ps_buf st = [] -> forall st', parse_step tix P (fill_end st) = inl st' -> ps_buf st' = [(TEoi, 0)].
  Proof.
    intros Ht Hb st' Hs. rewrite <- step_fill_end in Hs by auto.
    apply (end_kept_at w (with_iter st []) st'); auto. unfold ps_read. simpl. rewrite Hb. auto.
  Qed.

  Lemma loop_after w fuel : forall src st, turns tix P w st -> ps_buf st = [(TEoi, 0)] ->
    loop (pull_step tix pull P) fuel (src, st) =
      match loop (parse_step tix P) fuel st with Ok (o, _) => Ok (o, src) | Panic => Panic | OutOfFuel => OutOfFuel end.
  Proof.
    induction fuel as [|fuel IH]; intros src st Ht Hb; auto. cbn [loop pull_step]. rewrite Hb.
    destruct (parse_step tix P st) as [st'|[[o rest]| |]] eqn:Es; cbn [beside]; auto.
    apply IH; [econstructor; eauto|eapply end_kept; eauto].
  Qed.

  (** the result [r] on an iterator and the result [r'] on a list of tokens *)
  Definition same (r : res (outcome V E * S)) (src : S) (r' : res (outcome V E * list T)) (z : list T) : Prop :=
    match r with
    | Ok (o, x) => x = src /\ r' = Ok (o, z)
    | Panic => r' = Panic
    | OutOfFuel => r' = OutOfFuel
    end.
  Definition tells (src : S) (R : list T -> res (outcome V E * list T)) (r : res (outcome V E * S)) : Prop :=
    exists u src1, pulls pull src u src1 /\
      ((forall z, same r src1 (R (u ++ z)) z) \/
       (exists src2, pull src1 = Ok (None, src2) /\ same r src2 (R u) []) \/
       (r = Panic /\ pull src1 = Panic /\ forall z o, z <> [] -> R (u ++ z) <> Ok (o, z)) \/
       (r = OutOfFuel /\ pull src1 = OutOfFuel /\ forall z o, z <> [] -> R (u ++ z) <> Ok (o, z))).

  Lemma needs_more fuel st z o : ps_buf st = [] -> z <> [] -> loop (parse_step tix P) fuel (with_iter st z) <> Ok (o, z).
  Proof.
    intros Hb Hz H. destruct (iter_shrinks tix P fuel _ _ _ H Hz) as [_ [a Ha]]. unfold ps_read in Ha. simpl in Ha. rewrite Hb in Ha.
    destruct z as [|x z]; [congruence|]. simpl in Ha. apply (f_equal (@length T)) in Ha. rewrite app_length in Ha. simpl in Ha. lia.
  Qed.

  Lemma sim fuel : forall src st seen, ps_iter st = [] -> (forall z, turns tix P (seen ++ z) (with_iter st z)) ->
    tells src (fun z => loop (parse_step tix P) fuel (with_iter st z)) (loop (pull_step tix pull P) fuel (src, st)).
  Proof.
    induction fuel as [|fuel IH]; intros src st seen Hi Ht.
    { exists [], src. split; [constructor|]. left. intros z. reflexivity. }
    set (R := fun z => loop (parse_step tix P) (Datatypes.S fuel) (with_iter st z)).
    assert (ER : forall z, R z = match parse_step tix P (with_iter st z) with inl s' => loop (parse_step tix P) fuel s' | inr r => r end) by reflexivity.
    assert (ER0 : forall z, R z = loop (parse_step tix P) (Datatypes.S fuel) (with_iter st z)) by reflexivity.
    clearbody R. cbn [loop pull_step]. destruct (ps_buf st) as [|b buf] eqn:Eb.
    - destruct (pull src) as [[[x|] src']| |] eqn:Ep.
      + pose proof (step_iter_nil (fill tix st x) eq_refl) as Hn.
        destruct (parse_step tix P (fill tix st x)) as [st'|r] eqn:Es.
        * cbn [beside]. destruct (IH src' st' (seen ++ [x]) Hn) as (u & src1 & Hu & Hcase).
          { intros z. rewrite <- app_assoc. econstructor; [apply (Ht (x :: z))|]. rewrite step_fill by auto. rewrite Es. reflexivity. }
          assert (HR : forall z, R (x :: z) = loop (parse_step tix P) fuel (with_iter st' z)).
          { intros z. rewrite ER. rewrite step_fill by auto. rewrite Es. reflexivity. }
          exists (x :: u), src1. split; [econstructor; eauto|].
          destruct Hcase as [H|[(src2 & H1 & H2)|[(H1 & H2 & H3)|(H1 & H2 & H3)]]].
          -- left. intros z. cbn [app]. rewrite HR. apply H.
          -- right; left. exists src2. split; auto. rewrite HR. auto.
          -- right; right; left. split; auto. split; auto. intros z o Hz. cbn [app]. rewrite HR. auto.
          -- right; right; right. split; auto. split; auto. intros z o Hz. cbn [app]. rewrite HR. auto.
        * exists [x], src'. split; [econstructor; eauto; constructor|]. left. intros z. cbn [app]. rewrite ER. rewrite step_fill by auto. rewrite Es.
          destruct r as [[o rest]| |]; simpl; auto.
      + exists [], src. split; [constructor|]. right; left. exists src'. split; auto. rewrite ER. rewrite step_fill_end by auto.
        pose proof (Ht []) as Ht0. destruct (parse_step tix P (fill_end st)) as [st'|[[o rest]| |]] eqn:Es; cbn [beside].
        * assert (Hs : parse_step tix P (with_iter st []) = inl st') by (rewrite step_fill_end by auto; auto).
          assert (Ht1 : turns tix P (seen ++ []) st') by (econstructor; eauto).
          assert (Hb' : ps_buf st' = [(TEoi, 0)]).
          { apply (turn_fill_end (seen ++ []) st); auto. }
          rewrite (loop_after _ fuel src' st' Ht1 Hb').
          assert (Hn : ps_iter st' = []) by (pose proof (step_iter_nil (fill_end st) eq_refl) as Hn; rewrite Es in Hn; auto).
          pose proof (loop_iter_nil fuel st' Hn) as Hrest.
          destruct (loop (parse_step tix P) fuel st') as [[o rest]| |]; simpl; auto. subst rest. auto.
        * pose proof (step_iter_nil (fill_end st) eq_refl) as Hn. rewrite Es in Hn. subst rest. simpl. auto.
        * reflexivity.
        * reflexivity.
      + exists [], src. split; [constructor|]. right; right; left. split; auto. split; auto. intros z o Hz. cbn [app]. rewrite ER0. apply needs_more; auto.
      + exists [], src. split; [constructor|]. right; right; right. split; auto. split; auto. intros z o Hz. cbn [app]. rewrite ER0. apply needs_more; auto.
    - assert (Hne : ps_buf st <> []) by congruence. pose proof (step_iter_nil st Hi) as Hn.
      destruct (parse_step tix P st) as [st'|r] eqn:Es.
      + cbn [beside]. destruct (IH src st' seen Hn) as (u & src1 & Hu & Hcase).
        { intros z. econstructor; [apply (Ht z)|]. rewrite step_with by auto. rewrite Es. reflexivity. }
        assert (HR : forall z, R z = loop (parse_step tix P) fuel (with_iter st' z)).
        { intros z. rewrite ER. rewrite step_with by auto. rewrite Es. reflexivity. }
        exists u, src1. split; auto.
        destruct Hcase as [H|[(src2 & H1 & H2)|[(H1 & H2 & H3)|(H1 & H2 & H3)]]].
        * left. intros z. rewrite HR. apply H.
        * right; left. exists src2. split; auto. rewrite HR. auto.
        * right; right; left. split; auto. split; auto. intros z o Hz. rewrite HR. auto.
        * right; right; right. split; auto. split; auto. intros z o Hz. rewrite HR. auto.
      + exists [], src. split; [constructor|]. left. intros z. cbn [app]. rewrite ER. rewrite step_with by auto. rewrite Es. destruct r as [[o rest]| |]; simpl; auto.
  Qed.
End Parse.

Section Finite.
  Context {V T E S : Type} (tix : T -> nat) (pull : S -> res (option T * S)) (s : syntax V T E) (P : parser V T E) (ws : list warning) (ss : nat).
  Hypothesis Hm : made s P ws ss.

  Lemma sim_init fuel src : tells pull src (parse_full tix P fuel) (parse_pull tix pull P fuel src).
  Proof.
    pose proof (sim tix pull s P ws ss Hm fuel src (ps_init P []) [] eq_refl) as H. apply H. intros z. apply turns_init.
  Qed.

  Lemma sim_delivers src l srcF : delivers pull src l srcF -> forall fuel,
    match parse_full tix P fuel l with
    | Ok (o, rest) => exists u src', l = u ++ rest /\ parse_pull tix pull P fuel src = Ok (o, src') /\ (pulls pull src u src' \/ rest = [] /\ src' = srcF)
    | Panic => parse_pull tix pull P fuel src = Panic
    | OutOfFuel => parse_pull tix pull P fuel src = OutOfFuel
    end.
  Proof.
    intros (srcE & Hl & He) fuel. destruct (sim_init fuel src) as (u & src1 & Hu & Hcase). set (r := parse_pull tix pull P fuel src) in *. clearbody r.
    destruct (Nat.le_gt_cases (length u) (length l)) as [Hle|Hgt].
    - destruct (pulls_le pull _ _ _ Hu _ _ Hl Hle) as (m & -> & Hmm).
      assert (Hp : exists x, pull src1 = Ok x) by (inversion Hmm; subst; eauto).
      destruct Hcase as [H|[(src2 & H1 & H2)|[(H1 & H2 & H3)|(H1 & H2 & H3)]]].
      + specialize (H m). destruct r as [[o x]| |]; simpl in H; [destruct H as [-> ->]|rewrite H; auto|rewrite H; auto]. exists u, src1. auto.
      + inversion Hmm; subst; [|congruence]. rewrite app_nil_r. rewrite He in H1. injection H1 as <-.
        destruct r as [[o x]| |]; simpl in H2; [destruct H2 as [-> ->]|rewrite H2; auto|rewrite H2; auto]. exists u, srcF. rewrite app_nil_r. auto.
      + destruct Hp. congruence.
      + destruct Hp. congruence.
    - destruct (pulls_le pull _ _ _ Hl _ _ Hu) as (m & -> & Hmm); [lia|]. inversion Hmm; subst; [rewrite app_nil_r in Hgt; lia|congruence].
  Qed.
End Finite.

(** ** The token iterator *)
From Verif Require Import Hir TokModel TokSpec TokProofs DfaModel DfaEdges DfaProofs.

Section Mapped.
  Context {M T : Type} (mapf : M -> T -> res (N * M)).
  Lemma mapped_snoc m l cs m1 x c m2 : mapped mapf m l cs m1 -> mapf m1 x = Ok (c, m2) -> mapped mapf m (l ++ [x]) (cs ++ [c]) m2.
  Proof. induction 1; intros H'; simpl; [econstructor; eauto; constructor|econstructor; eauto]. Qed.
  Lemma mapped_len m l cs m1 : mapped mapf m l cs m1 -> length cs = length l.
  Proof. induction 1; simpl; auto. Qed.
End Mapped.

Lemma give_back_spec {T} (items q : list T) n : n <= length items -> give_back (rev items) n q = (rev (firstn n items), skipn n items ++ q).
Proof.
  intros Hn. rewrite <- (firstn_skipn n items) at 1. rewrite rev_app_distr.
  assert (Hl : length (rev (firstn n items)) = n) by (rewrite rev_length, firstn_length; lia).
  generalize dependent (rev (firstn n items)). intros a Ha. clear Hn. revert q. induction (skipn n items) as [|x b IH] using rev_ind; intros q; simpl.
  - destruct a as [|y a]; simpl; destruct (Nat.ltb_spec n (length (y :: a))) || destruct (Nat.ltb_spec n 0); simpl in *; try lia; auto.
    destruct (Nat.ltb_spec n (Datatypes.S (length a))); try lia. auto.
  - rewrite rev_app_distr. cbn [rev app give_back]. destruct (Nat.ltb_spec n (length (x :: rev b ++ a))); [|simpl in *; rewrite app_length, rev_length in *; lia].
    rewrite IH. rewrite <- app_assoc. reflexivity.
Qed.

Section Tokenize.
  Context {E T S M : Type} (pull : S -> res (option T * S)) (mapf : M -> T -> res (N * M)) (t : tokenizer E T).
  Hypothesis Ht : tok_ok t.
  Notation giter := (giter T S M).

  (** the winning pattern among the prefixes of the characters read *)
  Definition best (cs : list N) (pat : option nat) (len : nat) : Prop :=
    match pat with
    | Some p => len <= length cs /\ tok_accepts t (firstn len cs) p /\ forall k p', len < k <= length cs -> ~ tok_accepts t (firstn k cs) p'
    | None => forall k p', k <= length cs -> ~ tok_accepts t (firstn k cs) p'
    end.

  Record ginv (g0 : giter) (sc : gscan T S M) (q1 u : list T) : Prop := {
    gn_queue : gi_queue g0 = q1 ++ gi_queue (gs_src sc);
    gn_one : gi_queue (gs_src sc) = [] \/ u = [];
    gn_pulls : pulls pull (gi_src g0) u (gi_src (gs_src sc));
    gn_items : gs_items sc = q1 ++ u;
    gn_mapped : mapped mapf (gi_map g0) (q1 ++ u) (gs_chars sc) (gi_map (gs_src sc));
    gn_i : gs_i sc = length (gs_chars sc);
    gn_run : tok_run t (gs_chars sc) = Some (gs_node sc);
    gn_lt : gs_node sc < length (tk_goto t);
    gn_best : best (gs_chars sc) (gs_pat sc) (gs_len sc)
  }.

  (** how a scan may end: the automaton is stuck, or the input is at its end *)
  Record gfinal (g0 : giter) (sc : gscan T S M) (q1 u : list T) : Prop := {
    gf_queue : gi_queue g0 = q1 ++ gi_queue (gs_src sc);
    gf_one : gi_queue (gs_src sc) = [] \/ u = [];
    gf_items : gs_items sc = q1 ++ u;
    gf_mapped : mapped mapf (gi_map g0) (q1 ++ u) (gs_chars sc) (gi_map (gs_src sc));
    gf_best : best (gs_chars sc) (gs_pat sc) (gs_len sc);
    gf_alive : forall k, k < length (gs_chars sc) -> tok_run t (firstn k (gs_chars sc)) <> None;
    gf_stop : (tok_run t (gs_chars sc) = None /\ pulls pull (gi_src g0) u (gi_src (gs_src sc))) \/
      (tok_run t (gs_chars sc) <> None /\ gi_queue (gs_src sc) = [] /\ delivers pull (gi_src g0) u (gi_src (gs_src sc)))
  }.

  Lemma run_firstn cs n : tok_run t cs = Some n -> forall k, tok_run t (firstn k cs) <> None.
  Proof. intros H k. apply (run_prefix t _ (skipn k cs)). rewrite firstn_skipn. congruence. Qed.
  Lemma best_more cs c pat len : best cs pat len -> (forall p, ~ tok_accepts t (cs ++ [c]) p) -> best (cs ++ [c]) pat len.
  Proof.
    intros H Hno. unfold best in *. rewrite app_length. cbn [length]. destruct pat as [p|].
    - destruct H as (A & B & C). split; [lia|]. split; [rewrite firstn_snoc by lia; auto|]. intros k p' Hk. destruct (Nat.eq_dec k (length cs + 1)) as [->|Hne].
      + replace (length cs + 1) with (length (cs ++ [c])) by (rewrite app_length; simpl; lia). rewrite firstn_all. auto.
      + rewrite firstn_snoc by lia. apply C. lia.
    - intros k p' Hk. destruct (Nat.eq_dec k (length cs + 1)) as [->|Hne].
      + replace (length cs + 1) with (length (cs ++ [c])) by (rewrite app_length; simpl; lia). rewrite firstn_all. auto.
      + rewrite firstn_snoc by lia. apply H. lia.
  Qed.

  Lemma gpop_cases (g : giter) : match gpop pull g with
    | Ok (Some x, g') => gi_map g' = gi_map g /\ ((gi_queue g = x :: gi_queue g' /\ gi_src g' = gi_src g) \/ (gi_queue g = [] /\ gi_queue g' = [] /\ pull (gi_src g) = Ok (Some x, gi_src g')))
    | Ok (None, g') => gi_map g' = gi_map g /\ gi_queue g = [] /\ gi_queue g' = [] /\ pull (gi_src g) = Ok (None, gi_src g')
    | Panic => gi_queue g = [] /\ pull (gi_src g) = Panic
    | OutOfFuel => gi_queue g = [] /\ pull (gi_src g) = OutOfFuel
    end.
  Proof.
    unfold gpop. destruct (gi_queue g) as [|x q] eqn:Eq; [|simpl; auto]. destruct (pull (gi_src g)) as [[[x|] src]| |]; simpl; auto.
  Qed.

  Lemma gscan_step_ok g0 sc q1 u : ginv g0 sc q1 u ->
    match gscan_step pull mapf t sc with
    | inl sc' => exists q1' u', ginv g0 sc' q1' u'
    | inr (Ok sc') => exists q1' u', gfinal g0 sc' q1' u'
    | inr r => (exists src1, pulls pull (gi_src g0) u src1 /\ gi_queue g0 = q1 /\
                  ((pull src1 = Panic /\ r = Panic) \/ (pull src1 = OutOfFuel /\ r = OutOfFuel))) \/
               (exists cs m x, mapped mapf (gi_map g0) (q1 ++ u) cs m /\ ((mapf m x = Panic /\ r = Panic) \/ (mapf m x = OutOfFuel /\ r = OutOfFuel)))
    end.
  Proof.
    intros [I1 I2 I3 I4 I5 I6 I7 I8 I9]. unfold gscan_step. pose proof (gpop_cases (gs_src sc)) as Hp.
    destruct (gpop pull (gs_src sc)) as [[[x|] src]| |].
    - destruct Hp as (Hm & Hp). rewrite Hm. destruct (mapf (gi_map (gs_src sc)) x) as [[c m]| |] eqn:Em.
      2,3: right; exists (gs_chars sc), (gi_map (gs_src sc)), x; auto.
      assert (G : exists q1' u', gi_queue g0 = q1' ++ gi_queue src /\ (gi_queue src = [] \/ u' = []) /\ pulls pull (gi_src g0) u' (gi_src src) /\ (q1 ++ u) ++ [x] = q1' ++ u').
      { destruct Hp as [[Hq Hs]|(Hq & Hq' & Hs)].
        - destruct I2 as [I2|I2]; [congruence|]. subst u. exists (q1 ++ [x]), []. rewrite Hs, !app_nil_r, <- app_assoc. simpl. rewrite <- Hq. auto.
        - exists q1, (u ++ [x]). rewrite Hq', app_nil_r, app_assoc. rewrite Hq, app_nil_r in I1. split; auto. split; auto. split; auto. eapply pulls_snoc; eauto. }
      destruct G as (q1' & u' & G1 & G2 & G3 & G4).
      assert (Gm : mapped mapf (gi_map g0) (q1' ++ u') (gs_chars sc ++ [c]) m) by (rewrite <- G4; eapply mapped_snoc; eauto).
      assert (Halive : forall k, k < length (gs_chars sc ++ [c]) -> tok_run t (firstn k (gs_chars sc ++ [c])) <> None).
      { intros k Hk. rewrite app_length in Hk. simpl in Hk. rewrite firstn_snoc by lia. eapply run_firstn; eauto. }
      unfold next_node. destruct (nth_error (tk_goto t) (gs_node sc)) as [nd|] eqn:End; [|apply nth_error_None in End; lia].
      cbn [of_opt bind]. destruct (lookup c nd) as [n|] eqn:El.
      + assert (Hrun : tok_run t (gs_chars sc ++ [c]) = Some n).
        { rewrite (tok_run_app t _ _ _ I7). cbn [drun]. unfold dnext. rewrite End, El. reflexivity. }
        assert (Hlt : n < length (tk_goto t)) by (eapply to_target; eauto).
        unfold accept_index. destruct (aget Nat.eqb n (tk_end t)) as [p|] eqn:Ea; exists q1', u'.
        * split; cbn [gs_src gi_queue gi_src gi_map gs_items gs_chars gs_i gs_node gs_pat gs_len]; auto.
          -- rewrite I4. auto.
          -- rewrite I6, app_length. simpl. lia.
          -- rewrite I6. unfold best. rewrite app_length. cbn [length]. split; [lia|]. split.
             ++ replace (Datatypes.S (length (gs_chars sc))) with (length (gs_chars sc ++ [c])) by (rewrite app_length; simpl; lia). rewrite firstn_all. exists n. auto.
             ++ intros k p' Hk. lia.
        * split; cbn [gs_src gi_queue gi_src gi_map gs_items gs_chars gs_i gs_node gs_pat gs_len]; auto.
          -- rewrite I4. auto.
          -- rewrite I6, app_length. simpl. lia.
          -- apply best_more; auto. intros p' (n' & Hn' & Ha). rewrite Hrun in Hn'. inversion Hn'; subst. congruence.
      + assert (Hrun : tok_run t (gs_chars sc ++ [c]) = None).
        { rewrite (tok_run_app t _ _ _ I7). cbn [drun]. unfold dnext. rewrite End, El. reflexivity. }
        exists q1', u'. split; cbn [gs_src gi_queue gi_src gi_map gs_items gs_chars gs_i gs_node gs_pat gs_len]; auto.
        * rewrite I4. auto.
        * apply best_more; auto. intros p' (n' & Hn' & Ha). congruence.
    - destruct Hp as (Hm & Hq & Hq' & Hs). exists q1, u. split; cbn [gs_src gi_queue gi_src gi_map gs_items gs_chars gs_i gs_node gs_pat gs_len]; auto.
      + rewrite Hq', <- Hq. auto.
      + rewrite Hm. auto.
      + intros k _. eapply run_firstn; eauto.
      + right. split; [congruence|]. split; auto. eexists. split; eauto.
    - destruct Hp as [Hq Hp]. left. exists (gi_src (gs_src sc)). rewrite Hq, app_nil_r in I1. auto.
    - destruct Hp as [Hq Hp]. left. exists (gi_src (gs_src sc)). rewrite Hq, app_nil_r in I1. auto.
  Qed.

  Lemma gscan_items (sc : gscan T S M) : match gscan_step pull mapf t sc with inl sc' => length (gs_items sc') = Datatypes.S (length (gs_items sc)) | inr _ => True end.
  Proof.
    unfold gscan_step. destruct (gpop pull (gs_src sc)) as [[[x|] src]| |]; auto. destruct (mapf (gi_map src) x) as [[c m]| |]; auto.
    destruct (next_node t (gs_node sc) c) as [[n|]| |]; auto. destruct (accept_index t n); cbn [gs_items]; rewrite app_length; simpl; lia.
  Qed.

  Definition gstart (g : giter) : gscan T S M := mk_gscan (tk_begin t) (accept_index t (tk_begin t)) 0 0 [] [] g.
  Lemma gstart_ok (g : giter) : ginv g (gstart g) [] [].
  Proof.
    split; simpl; auto; try constructor.
    - apply Ht.
    - unfold best. simpl. unfold accept_index. destruct (aget Nat.eqb (tk_begin t) (tk_end t)) as [p|] eqn:Ea.
      + split; auto. split; [exists (tk_begin t); auto|]. intros k p' Hk. lia.
      + intros k p' Hk (n & Hn & Ha). replace k with 0 in Hn by lia. simpl in Hn. injection Hn as <-. congruence.
  Qed.

  (** what a call of [next] does *)
  Lemma gnext_ok fuel (g : giter) :
    match gnext pull mapf t fuel g with
    | Ok (o, g') => exists q1 q2 u cs,
        gi_queue g = q1 ++ q2 /\ (q2 = [] \/ u = []) /\ mapped mapf (gi_map g) (q1 ++ u) cs (gi_map g') /\
        (forall k, k < length cs -> tok_run t (firstn k cs) <> None) /\
        ((tok_run t cs = None /\ pulls pull (gi_src g) u (gi_src g')) \/ (tok_run t cs <> None /\ q2 = [] /\ delivers pull (gi_src g) u (gi_src g'))) /\
        match o with
        | Some e => exists k p m, k <= length cs /\ tok_accepts t (firstn k cs) p /\ (forall k' p', k < k' <= length cs -> ~ tok_accepts t (firstn k' cs) p') /\
            nth_error (tk_makers t) p = Some m /\ e = m (firstn k cs) (firstn k (q1 ++ u)) /\ gi_queue g' = skipn k (q1 ++ u) ++ q2
        | None => (forall k p, k <= length cs -> ~ tok_accepts t (firstn k cs) p) /\ gi_queue g' = q2
        end
    | r => exists q1 u,
        (exists src1, pulls pull (gi_src g) u src1 /\ gi_queue g = q1 /\ ((pull src1 = Panic /\ r = Panic) \/ (pull src1 = OutOfFuel /\ r = OutOfFuel))) \/
        (exists cs m x, mapped mapf (gi_map g) (q1 ++ u) cs m /\ ((mapf m x = Panic /\ r = Panic) \/ (mapf m x = OutOfFuel /\ r = OutOfFuel))) \/
        (r = OutOfFuel /\ exists src1 q2, length (q1 ++ u) = fuel /\ gi_queue g = q1 ++ q2 /\ pulls pull (gi_src g) u src1)
    end.
  Proof.
    unfold gnext. fold (gstart g).
    assert (H : forall fuel sc q1 u, ginv g sc q1 u ->
      match loop (gscan_step pull mapf t) fuel sc with
      | Ok sc' => exists q1' u', gfinal g sc' q1' u'
      | r => exists q1 u, (exists src1, pulls pull (gi_src g) u src1 /\ gi_queue g = q1 /\ ((pull src1 = Panic /\ r = Panic) \/ (pull src1 = OutOfFuel /\ r = OutOfFuel))) \/
          (exists cs m x, mapped mapf (gi_map g) (q1 ++ u) cs m /\ ((mapf m x = Panic /\ r = Panic) \/ (mapf m x = OutOfFuel /\ r = OutOfFuel))) \/
          (r = OutOfFuel /\ exists src1 q2, length (q1 ++ u) = fuel + length (gs_items sc) /\ gi_queue g = q1 ++ q2 /\ pulls pull (gi_src g) u src1)
      end).
    { clear fuel. induction fuel as [|fuel IH]; intros sc q1 u Hi; cbn [loop].
      - exists q1, u. right. right. split; auto. exists (gi_src (gs_src sc)), (gi_queue (gs_src sc)). rewrite (gn_items _ _ _ _ Hi). split; auto. split; apply Hi.
      - pose proof (gscan_step_ok g sc q1 u Hi) as H. pose proof (gscan_items sc) as Hl. destruct (gscan_step pull mapf t sc) as [sc'|r].
        + destruct H as (q1' & u' & H). specialize (IH _ _ _ H). destruct (loop (gscan_step pull mapf t) fuel sc'); auto;
            destruct IH as (a & b & [IH|[IH|(Hx & x & y & A & B & C)]]); try discriminate; exists a, b; auto; right; right; split; auto; exists x, y; split; auto; rewrite A, Hl; simpl; lia.
        + destruct r; auto; destruct H as [(src1 & H1 & H2 & H3)|(cs & m & x & H1 & H2)]; exists q1, u; eauto 10. }
    specialize (H fuel _ _ _ (gstart_ok g)). destruct (loop (gscan_step pull mapf t) fuel (gstart g)) as [sc| |]; cbn [bind].
    - destruct H as (q1 & u & [F1 F2 F3 F4 F5 F6 F7]). pose proof (mapped_len _ _ _ _ _ F4) as Hlen. rewrite F3. destruct (gs_pat sc) as [p|].
      + destruct F5 as (B1 & B2 & B3). rewrite give_back_spec by lia.
        destruct B2 as (n & Bn & Ba). destruct (nth_error (tk_makers t) p) as [m|] eqn:Em; [|apply nth_error_None in Em; pose proof (to_maker _ Ht _ _ Ba); lia].
        cbn [of_opt bind gi_queue gi_src gi_map]. exists q1, (gi_queue (gs_src sc)), u, (gs_chars sc). split; auto. split; auto. split; auto. split; auto. split; auto.
        exists (gs_len sc), p, m. split; auto. split; [exists n; auto|]. split; auto. split; auto. rewrite rev_involutive. auto.
      + exists q1, (gi_queue (gs_src sc)), u, (gs_chars sc). auto 10.
    - destruct H as (q1 & u & [(src1 & A & B & [[C D]|[C D]])|[(cs & m & x & A & [[C D]|[C D]])|(H & _)]]); try discriminate; exists q1, u; [left; exists src1; auto|right; left; exists cs, m, x; auto].
    - destruct H as (q1 & u & [(src1 & A & B & [[C D]|[C D]])|[(cs & m & x & A & [[C D]|[C D]])|(H & x & y & A & B)]]); try discriminate; exists q1, u; [left; exists src1; auto|right; left; exists cs, m, x; auto|].
      right. right. split; auto. exists x, y. simpl in A. rewrite Nat.add_0_r in A. auto.
  Qed.
End Tokenize.

Section Over.
  Context {S T : Type} (pull : S -> res (option T * S)).
  Lemma over_pull s : over pull s -> exists s', pull s = Ok (None, s') /\ over pull s'.
  Proof. intros (D & H1 & H2). destruct (H2 s H1) as (s' & H3 & H4). exists s'. split; auto. exists D. auto. Qed.
  (** the iterator delivers exactly [l] and ends for good *)
  Definition ends_with (s : S) (l : list T) : Prop := exists s', delivers pull s l s' /\ over pull s'.
  Lemma over_ends s : over pull s -> ends_with s [].
  Proof. intros H. destruct (over_pull s H) as (s' & H1 & H2). exists s'. split; auto. exists s. split; auto. constructor. Qed.
  Lemma ends_pulls s l u s1 : ends_with s l -> pulls pull s u s1 -> exists l', l = u ++ l' /\ ends_with s1 l'.
  Proof.
    intros (s' & (s2 & H1 & H2) & H3) Hu. destruct (Nat.le_gt_cases (length u) (length l)) as [Hle|Hgt].
    - destruct (pulls_le pull _ _ _ Hu _ _ H1 Hle) as (m & -> & Hm). exists m. split; auto. exists s'. split; auto. exists s2. auto.
    - destruct (pulls_le pull _ _ _ H1 _ _ Hu) as (m & -> & Hm); [lia|]. inversion Hm; subst; [rewrite app_nil_r in Hgt; lia|congruence].
  Qed.
  Lemma ends_delivers s l u s1 : ends_with s l -> delivers pull s u s1 -> l = u /\ ends_with s1 [].
  Proof.
    intros He (s2 & H1 & H2). destruct (ends_pulls s l u s2 He H1) as (l' & -> & (s' & (s3 & H3 & H4) & H5)). inversion H3; subst; [|congruence].
    rewrite H2 in H4. injection H4 as <-. split; [apply app_nil_r|]. apply over_ends. auto.
  Qed.
  Lemma ends_next s l : ends_with s l -> exists x s', pull s = Ok (x, s').
  Proof. intros (s' & (s2 & H1 & H2) & H3). inversion H1; subst; eauto. Qed.
End Over.

Lemma list_ends {T} (l : list T) : ends_with pull_list l l.
Proof.
  exists []. split; [exists []; split; auto|].
  - induction l; [constructor|]. econstructor; eauto. reflexivity.
  - exists (fun l => l = []). split; auto. intros x ->. exists []. auto.
Qed.

Section Pure.
  Context {E T S : Type} (pull : S -> res (option T * S)) (f : T -> N) (t : tokenizer E T).
  Hypothesis Ht : tok_ok t.

  Lemma mapped_pure m l cs m' : mapped (pure_map f) m l cs m' -> cs = map f l.
  Proof. induction 1 as [|m x c m1 l cs m2 H H' IH]; auto. unfold pure_map in H. injection H as <- <-. simpl. congruence. Qed.

  Definition gpend (g : giter T S unit) (w : list T) : Prop := exists l, w = gi_queue g ++ l /\ ends_with pull (gi_src g) l.

  Lemma longest_more q l k p : k <= length q -> tok_accepts t (map f (firstn k q)) p ->
    (forall k' p', k < k' <= length q -> ~ tok_accepts t (map f (firstn k' q)) p') ->
    l = [] \/ tok_run t (map f q) = None -> longest (tok_accepts t) f (q ++ l) k p.
  Proof.
    intros H1 H2 H3 H4. split; [rewrite app_length; lia|]. split; [rewrite firstn_all_app by auto; auto|]. intros k' p' Hk Ha.
    destruct (Nat.le_gt_cases k' (length q)) as [Hle|Hgt]; [rewrite firstn_all_app in Ha by auto; apply (H3 k' p'); auto; lia|].
    destruct H4 as [->|H4]; [rewrite app_nil_r in Hk; lia|]. destruct Ha as (n & Hn & _). rewrite firstn_app, firstn_all2 in Hn by lia. rewrite map_app, tok_run_dead in Hn; [discriminate|auto].
  Qed.
  Lemma nothing_more q l : (forall k p, k <= length q -> ~ tok_accepts t (map f (firstn k q)) p) ->
    l = [] \/ tok_run t (map f q) = None -> nothing (tok_accepts t) f (q ++ l).
  Proof.
    intros H3 H4 k p Hk Ha.
    destruct (Nat.le_gt_cases k (length q)) as [Hle|Hgt]; [rewrite firstn_all_app in Ha by auto; eapply H3; eauto|].
    destruct H4 as [->|H4]; [rewrite app_nil_r in Hk; lia|]. destruct Ha as (n & Hn & _). rewrite firstn_app, firstn_all2 in Hn by lia. rewrite map_app, tok_run_dead in Hn; [discriminate|auto].
  Qed.

  Lemma gnext_pure fuel (g : giter T S unit) w : gpend g w -> length w < fuel -> exists o g', gnext pull (pure_map f) t fuel g = Ok (o, g') /\
    match o with
    | Some e => exists k p m, longest (tok_accepts t) f w k p /\ nth_error (tk_makers t) p = Some m /\ e = m (map f (firstn k w)) (firstn k w) /\ gpend g' (skipn k w)
    | None => nothing (tok_accepts t) f w
    end.
  Proof.
    intros (l & -> & He) Hf. pose proof (gnext_ok pull (pure_map f) t Ht fuel g) as H.
    assert (Hnp : forall u src1, pulls pull (gi_src g) u src1 -> exists x, pull src1 = Ok x).
    { intros u src1 Hu. destruct (ends_pulls pull _ _ _ _ He Hu) as (l' & _ & He'). destruct (ends_next pull _ _ He') as (x & s' & ->). eauto. }
    destruct (gnext pull (pure_map f) t fuel g) as [[o g']| |].
    - exists o, g'. split; auto. destruct H as (q1 & q2 & u & cs & Hq & Hone & Hmap & _ & Hstop & Ho). apply mapped_pure in Hmap. subst cs.
      assert (G : exists l', l = u ++ l' /\ (q2 ++ l' = [] \/ tok_run t (map f (q1 ++ u)) = None) /\ ends_with pull (gi_src g') l').
      { destruct Hstop as [[Hr Hp]|(Hr & -> & Hd)].
        - destruct (ends_pulls pull _ _ _ _ He Hp) as (l' & -> & He'). exists l'. auto.
        - destruct (ends_delivers pull _ _ _ _ He Hd) as [-> He']. exists []. rewrite app_nil_r. auto. }
      destruct G as (l' & -> & Hend & He').
      assert (Ew : gi_queue g ++ u ++ l' = (q1 ++ u) ++ q2 ++ l').
      { rewrite Hq. destruct Hone as [->| ->]; rewrite ?app_nil_r; simpl; rewrite <- !app_assoc; auto. }
      rewrite Ew. destruct o as [e|]; rewrite map_length in Ho; setoid_rewrite firstn_map in Ho.
      + destruct Ho as (k & p & m & H1 & H2 & H3 & H4 & H5 & H6). exists k, p, m. split; [apply longest_more; auto|]. split; auto.
        rewrite (firstn_all_app (q1 ++ u)) by auto. split; auto. exists l'. split; auto. rewrite H6. rewrite skipn_app. replace (k - length (q1 ++ u)) with 0 by lia. simpl. rewrite <- app_assoc. auto.
      + destruct Ho as [H1 _]. apply nothing_more; auto.
    - exfalso. destruct H as (q1 & u & [(src1 & H1 & H2 & [[H3 H4]|[H3 H4]])|[(cs & m & x & H1 & [[H2 H3]|[H2 H3]])|(H1 & H2)]]); try discriminate.
      destruct (Hnp _ _ H1). congruence.
    - exfalso. destruct H as (q1 & u & [(src1 & H1 & H2 & [[H3 H4]|[H3 H4]])|[(cs & m & x & H1 & [[H2 H3]|[H2 H3]])|(H1 & src1 & q2 & H2 & H3 & H4)]]); try discriminate.
      + destruct (Hnp _ _ H1). congruence.
      + destruct (ends_pulls pull _ _ _ _ He H4) as (l' & -> & _). rewrite H3 in Hf. rewrite !app_length in *. lia.
  Qed.

  (** the tokens, when no token is empty *)
  Hypothesis Hnn : forall p, ~ tok_accepts t [] p.
  Lemma tokens_delivered fuel : forall n w (g : giter T S unit), length w <= n -> gpend g w -> length w < fuel ->
    exists toks es g', munch (tok_accepts t) f w toks /\ delivers (gnext pull (pure_map f) t fuel) g es g' /\
      Forall2 (fun e x => exists m, nth_error (tk_makers t) (fst x) = Some m /\ e = m (map f (snd x)) (snd x)) es toks.
  Proof.
    induction n as [|n IH]; intros w g Hn Hw Hf; destruct (gnext_pure fuel g w Hw Hf) as ([e|] & g1 & Hg & Ho).
    - exfalso. destruct Ho as (k & p & m & (Hk & Ha & _) & _). replace k with 0 in Ha by lia. eapply Hnn; eauto.
    - exists [], [], g1. split; [constructor; auto|]. split; [exists g; split; auto; constructor|constructor].
    - destruct Ho as (k & p & m & Hl & Hm & He & Hp). pose proof Hl as (Hk & Ha & _).
      assert (0 < k). { destruct k; [exfalso; eapply Hnn; eauto|lia]. }
      destruct (IH (skipn k w) g1) as (toks & es & g' & H1 & (g2 & H2 & H3) & H4); [rewrite skipn_length; lia|auto|rewrite skipn_length; lia|].
      exists ((p, firstn k w) :: toks), (e :: es), g'. split; [constructor; auto|]. split.
      + exists g2. split; auto. econstructor; eauto.
      + constructor; auto. exists m. auto.
    - exists [], [], g1. split; [constructor; auto|]. split; [exists g; split; auto; constructor|constructor].
  Qed.
End Pure.
