(** The combined NFA of all patterns ([tnfa_of]): from its start node, the words leading to
    the end node of pattern [i] are exactly those recognised by pattern [i] on its own. *)
From Verif Require Import Lib Hir NfaPath NfaSem NfaModel NfaProofs NfaCorrect NfaTop NfaExact.

(** the words that can be read from the start node of the automaton of [h], leading anywhere *)
Definition live (h : hir) : lang := fun w => exists hp n q, nfa_of h [] = NOk (hp, n) /\ path (hedge hp) (nfa_begin n) w q.

Record piece := mk_piece { pc_h : hir; pc_b : nat; pc_e : nat; pc_lo : nat; pc_hi : nat }.

Record pc_ok (nodes : heap) (g : piece) : Prop := {
  pk_b : pc_lo g <= pc_b g < pc_hi g;
  pk_e : pc_lo g <= pc_e g < pc_hi g;
  pk_hi : pc_hi g <= length nodes;
  pk_closed : closed (hedge nodes) (fun p => pc_lo g <= p < pc_hi g);
  pk_lang : forall w, path (hedge nodes) (pc_b g) w (pc_e g) <-> sem (pc_h g) B E w;
  pk_live : forall w, (exists q, path (hedge nodes) (pc_b g) w q) <-> live (pc_h g) w
}.

Record tn_inv (nodes : heap) (beps ends : list nat) (gs : list piece) : Prop := {
  ti_ok : okh nodes;
  ti_closed : closed (hedge nodes) (fun p => p < length nodes);
  ti_ends : ends = map pc_e gs;
  ti_beps : forall p, In p beps <-> exists g, In g gs /\ p = pc_b g;
  ti_pcs : Forall (pc_ok nodes) gs;
  ti_disj : StronglySorted (fun g1 g2 => pc_hi g1 <= pc_lo g2) gs
}.

Lemma hedge_app nodes t p l q : p < length nodes -> (hedge nodes p l q <-> hedge (nodes ++ t) p l q).
Proof. intros H. apply hedge_agree. rewrite nth_error_app1; auto. Qed.

Lemma pc_ok_app nodes t g : pc_ok nodes g -> pc_ok (nodes ++ t) g.
Proof.
  intros [H1 H2 H3 H4 H5 H6].
  assert (Hag : forall x l y, pc_lo g <= x < pc_hi g -> (hedge nodes x l y <-> hedge (nodes ++ t) x l y))
    by (intros x l y Hx; apply hedge_app; lia).
  split; auto.
  - rewrite app_length. lia.
  - eapply closed_agree; eauto.
  - intros w. rewrite <- H5. symmetry. apply path_frame with (P := fun p => pc_lo g <= p < pc_hi g); auto.
  - intros w. rewrite <- H6. split; intros [q Hq]; exists q.
    + apply (path_frame _ _ (fun p => pc_lo g <= p < pc_hi g) H4 Hag _ _ _ H1). exact Hq.
    + apply (path_frame _ _ (fun p => pc_lo g <= p < pc_hi g) H4 Hag _ _ _ H1) in Hq. exact Hq.
Qed.

Lemma tn_step nodes beps ends gs h : tn_inv nodes beps ends gs -> wf_hir h ->
  (exists hp n news b e, nfa_of h [] = NOk (hp, n) /\ embed hp n (length nodes) = NOk (news, b, e) /\
     (forall er, ~ uses h er) /\
     exists lo hi, tn_inv (nodes ++ news) (ins b beps) (ends ++ [e]) (gs ++ [mk_piece h b e lo hi])) \/
  (exists er, nfa_of h [] = NErr er /\ uses h er).
Proof.
  intros [Iok Icl Ie Ib Ip Id] Hw.
  destruct (nfa_of_spec h Hw [] (Forall_nil _)) as [(hp & n & Eq & (Hok & _ & Hwf & Hm) & Hu)|(er & Eq & Hu)]; [left|right; eauto].
  destruct (copy_graph (length nodes) _ _ _ Hwf Hok) as (olds & news & H1 & H2 & Hlen & Hokn & H3).
  destruct (remap_In (length nodes) _ _ (wf_begin _ _ _ Hwf)) as [b Hb].
  destruct (remap_In (length nodes) _ _ (wf_end _ _ _ Hwf)) as [e He].
  exists hp, n, news, b, e. split; auto. split.
  { unfold embed. fold (remap (length nodes) (nfa_nodes n)).
    change (option_map (fun i => length nodes + i) (pos_of (nfa_nodes n) (nfa_end n))) with (remap (length nodes) (nfa_nodes n) (nfa_end n)).
    change (option_map (fun i => length nodes + i) (pos_of (nfa_nodes n) (nfa_begin n))) with (remap (length nodes) (nfa_nodes n) (nfa_begin n)).
    rewrite He, Hb. simpl. rewrite H1. simpl. rewrite H2. reflexivity. }
  split; auto.
  assert (Hh : forall i, i < length (nfa_nodes n) -> nth_error (nodes ++ news) (length nodes + i) = nth_error news i).
  { intros i Hi. rewrite nth_error_app2 by lia. f_equal. lia. }
  pose proof (remap_range _ _ _ _ Hb) as Rb. pose proof (remap_range _ _ _ _ He) as Re.
  assert (Hcl : closed (hedge (nodes ++ news)) (fun p => length nodes <= p < length nodes + length (nfa_nodes n))).
  { intros p l q Hp Hq. destruct Hq as (m & Hm' & Hq).
    replace p with (length nodes + (p - length nodes)) in Hm' by lia. rewrite Hh in Hm' by lia.
    destruct (nth_error (nfa_nodes n) (p - length nodes)) as [x|] eqn:Ex; [|apply nth_error_None in Ex; lia].
    destruct (H3 _ _ Ex) as (n' & Hn' & Hed). rewrite Hm' in Hn'. inversion Hn'; subst.
    apply Hed in Hq as (y & Hy & _). apply remap_range in Hy. lia. }
  exists (length nodes), (length nodes + length (nfa_nodes n)). split.
  - apply Forall_app; auto.
  - intros p l q Hp Hq. rewrite app_length in *. destruct (Nat.lt_ge_cases p (length nodes)) as [Hlt|Hge].
    + apply hedge_app in Hq; auto. apply Icl in Hq; auto. lia.
    + apply Hcl in Hq; lia.
  - rewrite map_app, Ie. reflexivity.
  - intros p. rewrite In_ins, Ib. split.
    + intros [->|(g & Hg & ->)]; eexists; (split; [apply in_or_app|]); eauto; simpl; auto.
    + intros (g & Hg & ->). apply in_app_or in Hg as [Hg|[<-|[]]]; eauto.
  - apply Forall_app. split.
    + eapply Forall_impl; [|exact Ip]. intros g. apply pc_ok_app.
    + constructor; auto. split; simpl; auto.
      * rewrite app_length. lia.
      * intros w. rewrite <- (Hm B E w). unfold mat_of. simpl. eapply copy_paths; eauto; apply Hwf.
      * intros w. split.
        -- intros [q Hq]. assert (Hqr : length nodes <= q < length nodes + length (nfa_nodes n)).
           { apply (path_closed _ (fun p => length nodes <= p < length nodes + length (nfa_nodes n)) _ _ _ Hcl Rb Hq). }
           destruct (nth_error (nfa_nodes n) (q - length nodes)) as [y|] eqn:Ey; [|apply nth_error_None in Ey; lia].
           assert (Hy : remap (length nodes) (nfa_nodes n) y = Some q).
           { unfold remap. rewrite (pos_of_nth _ _ _ (wf_nodup _ _ _ Hwf) Ey). simpl. f_equal. lia. }
           exists hp, n, y. split; auto. eapply (copy_paths _ _ _ _ _ _ Hwf Hh H3); [apply Hwf|eapply nth_error_In; eauto|exact Hb|exact Hy|exact Hq].
        -- intros (hp' & n' & y & Eq' & Hp). rewrite Eq in Eq'. inversion Eq'; subst hp' n'.
           assert (Hy : In y (nfa_nodes n)) by (apply (path_closed _ (fun p => In p (nfa_nodes n)) _ _ _ (wf_closed _ _ _ Hwf) (wf_begin _ _ _ Hwf) Hp)).
           destruct (remap_In (length nodes) _ _ Hy) as [q Hq]. exists q.
           eapply (copy_paths _ _ _ _ _ _ Hwf Hh H3); [apply Hwf|exact Hy|exact Hb|exact Hq|exact Hp].
  - clear -Id Ip. induction Id as [|g gs Hs IH Hg]; simpl; [repeat constructor|].
    inversion Ip; subst. constructor; auto. apply Forall_app. split; auto. constructor; auto. simpl. apply (pk_hi _ _ H1).
Qed.

Lemma tn_loop_ok ps : Forall wf_hir ps -> forall nodes beps ends gs, tn_inv nodes beps ends gs ->
  (exists nodes' beps' ends' gs', tnfa_loop ps nodes beps ends = NOk (nodes', beps', ends') /\
     tn_inv nodes' beps' ends' gs' /\ map pc_h gs' = map pc_h gs ++ ps /\ Forall supported ps) \/
  (exists i h e, tnfa_loop ps nodes beps ends = NErr e /\ nth_error ps i = Some h /\ uses h e /\
     Forall supported (firstn i ps)).
Proof.
  induction 1 as [|h ps Hh Hps IH]; intros nodes beps ends gs Hi.
  - left. do 4 eexists. split; [reflexivity|]. split; eauto. rewrite app_nil_r. split; [reflexivity|constructor].
  - simpl. destruct (tn_step _ _ _ _ _ Hi Hh) as [(hp & n & news & b & e & E1 & E2 & Hu & lo & hi & Hi')|(er & E1 & Hu)].
    + rewrite E1. simpl. rewrite E2. simpl.
      destruct (IH _ _ _ _ Hi') as [(nodes' & beps' & ends' & gs' & E3 & Hi'' & Em & Hs)|(i & h' & e' & E3 & En & Hu' & Hs)].
      * left. do 4 eexists. split; [exact E3|]. split; eauto. rewrite Em, map_app, <- app_assoc. split; auto.
      * right. exists (S i), h', e'. repeat split; auto. simpl. constructor; auto.
    + right. rewrite E1. exists 0, h, er. repeat split; auto. constructor.
Qed.

Lemma StronglySorted_nth {A} (R : A -> A -> Prop) l : StronglySorted R l ->
  forall i j x y, nth_error l i = Some x -> nth_error l j = Some y -> i < j -> R x y.
Proof.
  induction 1 as [|a l Hs IH Ha]; intros i j x y Hi Hj Hlt; [destruct i; discriminate|].
  destruct j as [|j]; [lia|]. simpl in Hj. destruct i as [|i]; simpl in Hi.
  - inversion Hi; subst. rewrite Forall_forall in Ha. apply Ha. eapply nth_error_In; eauto.
  - eapply IH; eauto. lia.
Qed.

(** Outcome of building the combined NFA. *)
Record tnfa_good (ps : list hir) (t : tnfa) : Prop := {
  tg_ok : okh (tn_nodes t);
  tg_begin : tn_begin t < length (tn_nodes t);
  tg_closed : closed (hedge (tn_nodes t)) (fun p => p < length (tn_nodes t));
  tg_len : length (tn_end t) = length ps;
  tg_nodup : NoDup (tn_end t);
  tg_lang : forall i h e, nth_error ps i = Some h -> nth_error (tn_end t) i = Some e ->
            forall w, path (hedge (tn_nodes t)) (tn_begin t) w e <-> sem h B E w;
  tg_sup : Forall supported ps;
  tg_live : forall w, (exists q, path (hedge (tn_nodes t)) (tn_begin t) w q) <-> w = [] \/ exists h, In h ps /\ live h w
}.

Theorem tnfa_of_spec ps : Forall wf_hir ps ->
  (exists t, tnfa_of ps = NOk t /\ tnfa_good ps t) \/
  (exists i h e, tnfa_of ps = NErr e /\ nth_error ps i = Some h /\ uses h e /\ Forall supported (firstn i ps)).
Proof.
  intros Hw.
  assert (Hi0 : tn_inv [] [] [] []).
  { split.
    - constructor.
    - intros x l y Hx; simpl in Hx; lia.
    - reflexivity.
    - intros p. simpl. split; [tauto|intros (g & [] & _)].
    - constructor.
    - constructor. }
  unfold tnfa_of.
  destruct (tn_loop_ok ps Hw _ _ _ _ Hi0) as [(nodes & beps & ends & gs & E1 & [Iok Icl Ie Ib Ip Id] & Em & Hs)|(i & h & e & E1 & En & Hu & Hs)].
  2:{ right. exists i, h, e. rewrite E1. repeat split; auto. }
  left. rewrite E1. simpl. eexists. split; [reflexivity|]. simpl in Em.
  set (root := mk_nnode beps []).
  assert (Hroot : nth_error (nodes ++ [root]) (length nodes) = Some root).
  { rewrite nth_error_app2, Nat.sub_diag by lia. reflexivity. }
  split; simpl; auto.
  - apply Forall_app. split; auto. constructor; auto. intros r s []. 
  - rewrite app_length. simpl. lia.
  - intros p l q Hp Hq. rewrite app_length in *. simpl in *.
    destruct (Nat.eq_dec p (length nodes)) as [->|Hne].
    + destruct Hq as (m & Hm & Hq). rewrite Hroot in Hm. inversion Hm; subst. destruct l as [c|]; simpl in Hq.
      * destruct Hq as (r & s & [] & _).
      * apply Ib in Hq as (g & Hg & ->). rewrite Forall_forall in Ip. destruct (Ip _ Hg). lia.
    + apply hedge_app in Hq; [|lia]. apply Icl in Hq; lia.
  - rewrite Ie, map_length, <- (map_length pc_h), Em. reflexivity.
  - rewrite Ie. clear -Ip Id. induction Id as [|g gs Hs IH Hg]; simpl; constructor.
    + intros Hin. apply in_map_iff in Hin as (g' & Eg & Hin). inversion Ip; subst. rewrite Forall_forall in *.
      specialize (Hg _ Hin). destruct (H2 _ Hin). destruct H1. lia.
    + apply IH. inversion Ip; auto.
  - intros i h e Hh He w. rewrite Ie in He. rewrite <- Em in Hh.
    rewrite nth_error_map in Hh, He. destruct (nth_error gs i) as [g|] eqn:Eg; [|discriminate].
    simpl in Hh, He. inversion Hh; inversion He; subst h e. clear Hh He.
    assert (Hg := nth_error_In _ _ Eg). assert (Ip' := Ip). rewrite Forall_forall in Ip'.
    assert (Hpg := pc_ok_app _ [root] _ (Ip' _ Hg)). rewrite <- (pk_lang _ _ Hpg).
    split.
    + intros Hp. inversion Hp as [x Hx|x y z w' Hr Hp'|x c y w' z Hr Hp']; subst.
      * destruct (Ip' _ Hg). lia.
      * destruct Hr as (m & Hm & Hq). rewrite Hroot in Hm. inversion Hm; subst m. simpl in Hq.
        apply Ib in Hq as (g' & Hg' & ->). assert (Hpg' := pc_ok_app _ [root] _ (Ip' _ Hg')).
        apply In_nth_error in Hg' as [j Hj].
        assert (Hin : pc_lo g' <= pc_e g < pc_hi g').
        { apply (path_closed (hedge (nodes ++ [root])) (fun p => pc_lo g' <= p < pc_hi g') (pc_b g') w); [apply Hpg'|apply Hpg'|auto]. }
        destruct (Nat.lt_trichotomy i j) as [Hlt|[->|Hlt]].
        -- apply (StronglySorted_nth _ _ Id _ _ _ _ Eg Hj) in Hlt. destruct Hpg. lia.
        -- rewrite Eg in Hj. inversion Hj; subst. auto.
        -- apply (StronglySorted_nth _ _ Id _ _ _ _ Hj Eg) in Hlt. destruct Hpg. lia.
      * destruct Hr as (m & Hm & Hq). rewrite Hroot in Hm. inversion Hm; subst m. simpl in Hq.
        destruct Hq as (r & s & [] & _).
    + intros Hp. eapply p_eps; [|exact Hp]. exists root. split; auto. simpl. apply Ib. eauto.
  - intros w. assert (Ip' := Ip). rewrite Forall_forall in Ip'. split.
    + intros [q Hp]. inversion Hp as [x Hx|x y z w' Hr Hp'|x c y w' z Hr Hp']; subst; auto.
      * right. destruct Hr as (m & Hm & Hq). rewrite Hroot in Hm. inversion Hm; subst m. simpl in Hq.
        apply Ib in Hq as (g & Hg & ->). exists (pc_h g). split; [apply in_map; auto|].
        apply (pk_live _ _ (pc_ok_app _ [root] _ (Ip' _ Hg))). eauto.
      * destruct Hr as (m & Hm & Hq). rewrite Hroot in Hm. inversion Hm; subst m. simpl in Hq.
        destruct Hq as (r & s & [] & _).
    + intros [->|(h & Hh & Hl)]; [exists (length nodes); constructor|]. rewrite <- Em in Hh. apply in_map_iff in Hh as (g & <- & Hg).
      apply (pk_live _ _ (pc_ok_app _ [root] _ (Ip' _ Hg))) in Hl as [q Hq]. exists q. eapply p_eps; [|exact Hq].
      exists root. split; auto. simpl. apply Ib. eauto.
Qed.
