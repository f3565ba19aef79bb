(** Further facts used by the property files: determinisation of arbitrary automata,
    minimisation of arbitrary tables, inversion of a successful build. *)
From Verif Require Import Lib Hir NfaPath NfaSem NfaModel NfaProofs NfaExact TokNfa DfaModel DfaEdges DfaProofs DfaTop MinModel MinProofs MinTop TokModel TokSpec TokProofs TokTop.

(** *** Nondeterministic automata with ranges, as data *)
Record nfa_wf (t : tnfa) : Prop := {
  nw_ok : okh (tn_nodes t);
  nw_begin : tn_begin t < length (tn_nodes t);
  nw_closed : closed (hedge (tn_nodes t)) (fun p => p < length (tn_nodes t))
}.
(** a run from the start node to the final node of pattern [p] reading [w] *)
Definition nfa_lang (t : tnfa) (p : nat) : lang :=
  fun w => exists e, nth_error (tn_end t) p = Some e /\ path (hedge (tn_nodes t)) (tn_begin t) w e.

Lemma tnfa_good_wf ps t : tnfa_good ps t -> nfa_wf t.
Proof. intros [A B C _ _ _ _ _]. split; auto. Qed.

Theorem dfa_of_any t : nfa_wf t ->
  exists F nodes, forall order fuel, (forall l, Permutation (order l) l) -> F <= fuel ->
    exists en ws, dfa_of order fuel t = Ok (mk_dfa nodes 0 en, ws) /\
      dfa_good (length (tn_end t)) (nfa_lang t) (mk_dfa nodes 0 en) /\ warn_good (length (tn_end t)) (nfa_lang t) ws /\
      (forall w, drun nodes 0 w = None <-> forall q, ~ path (hedge (tn_nodes t)) (tn_begin t) w q) /\
      forall w, drun nodes 0 w <> None -> exists q, path (hedge (tn_nodes t)) (tn_begin t) w q.
Proof.
  intros [Tok Tb Tcl]. unfold dfa_of.
  destruct (eps_rec_spec _ Tcl _ Tb) as (b & Eb & _ & _). rewrite Eb. simpl.
  destruct (worklist_ok _ Tok Tcl _ Tb b Eb) as (F & st & Hf & HF).
  exists F, (ds_nodes st). intros order fuel Hord Hfuel. rewrite HF by auto. simpl.
  assert (Hp := Hord (ds_ref st)).
  assert (Hin : forall x, In x (order (ds_ref st)) <-> In x (ds_ref st)).
  { intros x. split; apply Permutation_in; auto. apply Permutation_sym; auto. }
  assert (Hnd0 : NoDup (map snd (ds_ref st))) by (rewrite (df_seq _ _ _ Hf); apply seq_NoDup).
  assert (Hnd : NoDup (map snd (order (ds_ref st)))).
  { eapply Permutation_NoDup; [apply Permutation_map, Permutation_sym, Hp|auto]. }
  destruct (mark_all_ok (tn_end t) _ Hnd) as (A1 & A2 & A3 & A4).
  destruct (mark_all (tn_end t) (order (ds_ref st))) as [en ws]. simpl in A1, A2, A3, A4.
  exists en, ws. split; auto.
  assert (Hlang : forall w s, reaches (tn_nodes t) (tn_begin t) w s -> forall p, ehit (tn_end t) s p <-> nfa_lang t p w).
  { intros w s [_ Hr] p. unfold ehit, nfa_lang. split; intros (e & He & Hs); exists e; split; auto; apply Hr; auto. }
  assert (Hlt : forall p w, nfa_lang t p w -> p < length (tn_end t)).
  { intros p w (e & He & _). eapply nth_error_Some_lt; eauto. }
  assert (Hinj : forall s s' i, In (s, i) (ds_ref st) -> In (s', i) (ds_ref st) -> s = s').
  { clear -Hnd0. intros s s' i Hs Hs'. induction (ds_ref st) as [|[s0 j] l IH]; simpl in *; [tauto|]. inversion Hnd0; subst.
    destruct Hs as [E1|H1'], Hs' as [E2|H2'].
    - congruence.
    - inversion E1; subst. exfalso. apply H1. apply (in_map snd) in H2'. auto.
    - inversion E2; subst. exfalso. apply H1. apply (in_map snd) in H1'. auto.
    - auto. }
  split; [|split; [|split]].
  - split; simpl.
    + intros i nd. apply (final_ranges _ Tok Tcl _ Tb); auto.
    + intros i nd r j Hn Hrj. destruct (final_set _ _ Tb st i Hf) as [s Hs]; [eapply nth_error_Some_lt; eauto|].
      destruct (df_nodes _ _ _ Hf s i Hs) as (nd' & Hn' & H2). rewrite Hn in Hn'. inversion Hn'; subst nd'.
      destruct (Forall2_In_r _ _ _ _ H2 Hrj) as (x & _ & [_ Hx]). eapply final_idx; eauto.
    + destruct (df_begin _ _ _ Hf) as (s & Hs & _). eapply final_idx; eauto.
    + intros i Hi. apply (final_reach _ Tok Tcl _ Tb); auto.
    + intros w i Hrun p. pose proof (final_run _ Tok Tcl _ Tb st w Hf) as Hr. rewrite Hrun in Hr. destruct Hr as (s & Hs & Hr).
      rewrite A1. unfold first_match. split.
      * intros (s' & Hs' & H1 & H2). apply Hin in Hs'. rewrite (Hinj _ _ _ Hs' Hs) in *.
        apply (Hlang _ _ Hr) in H1. split; eauto. split; auto. intros p' Hp' Hm.
        assert (p <= p') by (apply H2, (Hlang _ _ Hr); auto). lia.
      * intros (_ & Hm & Hmin). exists s. split; [apply Hin; auto|]. split; [apply (Hlang _ _ Hr); auto|].
        intros p' Hp'. apply (Hlang _ _ Hr) in Hp'. destruct (Nat.le_gt_cases p p'); auto. exfalso. eapply Hmin; eauto.
    + intros w Hrun p _ (e & He & Hs). pose proof (final_run _ Tok Tcl _ Tb st w Hf) as Hr. rewrite Hrun in Hr. eapply Hr; eauto.
    + intros i p Hip. apply (aget_NoDup Nat.eqb Nat.eqb_eq) in Hip; auto. apply A1 in Hip as (s & Hs & (e & He & _) & _).
      apply Hin in Hs. split; [eapply final_idx; eauto|]. eapply nth_error_Some_lt; eauto.
    + auto.
  - intros a c. rewrite A3. simpl. split.
    + intros (s & k & Hs & H1 & H2 & H3 & H4). apply Hin in Hs. destruct (df_sets _ _ _ Hf _ _ Hs) as (_ & w & Hr).
      apply (Hlang _ _ Hr) in H1, H2. split; eauto. split; auto. exists w. split; auto. split; auto.
      intros p Hpp Hm. apply (H4 p); auto. apply (Hlang _ _ Hr). auto.
    + intros (Ha & Hca & w & Hw1 & Hw2 & Hw3). pose proof (final_run _ Tok Tcl _ Tb st w Hf) as Hr.
      destruct (drun (ds_nodes st) 0 w) as [k|].
      * destruct Hr as (s & Hs & Hr). exists s, k. split; [apply Hin; auto|]. split; [apply (Hlang _ _ Hr); auto|].
        split; [apply (Hlang _ _ Hr); auto|]. split; auto. intros j Hj Hb. apply (Hlang _ _ Hr) in Hj. eapply Hw3; eauto.
      * exfalso. destruct Hw1 as (e & He & Hs). eapply Hr; eauto.
  - intros w. pose proof (final_run _ Tok Tcl _ Tb st w Hf) as Hr. destruct (drun (ds_nodes st) 0 w) as [i|]; [|tauto].
    split; [discriminate|]. intros Hq. exfalso. destruct Hr as (s & Hs & Hr).
    destruct (df_sets _ _ _ Hf _ _ Hs) as (Hne & _). destruct s as [|q s]; [congruence|]. apply (Hq q). apply Hr. simpl; auto.
  - intros w Hw. pose proof (final_run _ Tok Tcl _ Tb st w Hf) as Hr. destruct (drun (ds_nodes st) 0 w) as [i|]; [|congruence].
    destruct Hr as (s & Hs & Hr). destruct (df_sets _ _ _ Hf _ _ Hs) as (Hne & _). destruct s as [|q s]; [congruence|]. exists q. apply Hr. simpl; auto.
Qed.

(** *** Minimisation of any sound table *)
Record dfa_wf (d : dfa) : Prop := {
  dw_ranges : forall i nd, nth_error (d_nodes d) i = Some nd -> ranges_ok nd;
  dw_target : forall i nd r j, nth_error (d_nodes d) i = Some nd -> In (r, j) nd -> j < length (d_nodes d);
  dw_begin : d_begin d < length (d_nodes d);
  dw_keys : forall i p, In (i, p) (d_end d) -> i < length (d_nodes d);
  dw_nodup : NoDup (map fst (d_end d))
}.

Lemma dfa_good_wf n M d : dfa_good n M d -> dfa_wf d.
Proof. intros [A B C D E F G H]. split; auto. intros i p Hi. apply (G i p Hi). Qed.

Theorem minify_any o d : oracle_ok o -> dfa_wf d ->
  exists d', minify o d = Ok d' /\ dfa_wf d' /\ length (d_nodes d') <= length (d_nodes d) /\
    (honest o -> minimal d' /\ forall w, obs d' (d_begin d') w = obs d (d_begin d) w).
Proof.
  intros Ho [G1 G2 G3 G7 G8].
  destruct (minify_ok o d Ho G1 G2 G3 G7 G8) as (d' & f & E & A1 & A2 & A3 & A4 & A5 & A6 & A7 & A8 & A9).
  exists d'. split; auto. split.
  { split; auto.
    - rewrite A3. auto.
    - intros k p Hin. destruct (A8 k p Hin) as (i & Hi & <- & _). auto. }
  split.
  { assert (G : exists r, length r = length (d_nodes d') /\ NoDup r /\ forall i, In i r -> i < length (d_nodes d)).
    { clear -A5. assert (G : forall n, n <= length (d_nodes d') -> exists r, map f r = seq 0 n /\ forall i, In i r -> i < length (d_nodes d)).
      { induction n as [|n IH]; intros Hn; [exists []; simpl; split; [auto|intros i []]|]. destruct IH as (r & R1 & R2); [lia|].
        destruct (A5 n) as (i & Hi & Hf); [lia|]. exists (r ++ [i]). rewrite map_app, R1, seq_S. simpl. rewrite Hf. split; auto.
        intros j Hj. apply in_app_or in Hj as [Hj|[<-|[]]]; auto. }
      destruct (G _ (le_n _)) as (r & R1 & R2). exists r. split; [rewrite <- (map_length f), R1, seq_length; auto|]. split; auto.
      apply (NoDup_map_inv f). rewrite R1. apply seq_NoDup. }
    destruct G as (r & R1 & R2 & R3). rewrite <- R1, <- (seq_length (length (d_nodes d)) 0). apply NoDup_incl_length; auto.
    intros i Hi. apply in_seq. apply R3 in Hi. lia. }
  intros Hh. destruct (A9 Hh) as [B1 B2].
  assert (Hrun : forall w i, i < length (d_nodes d) -> drun (d_nodes d') (f i) w = option_map f (drun (d_nodes d) i w)).
  { induction w as [|c w IH]; simpl; intros i Hi; auto. rewrite B1 by auto.
    destruct (dnext (d_nodes d) i c) as [j|] eqn:Ej; simpl; auto. apply IH.
    apply (drun_lt (d_nodes d) G1 G2 [c] i j Hi). simpl. rewrite Ej. reflexivity. }
  assert (Hobs : forall w i, i < length (d_nodes d) -> obs d' (f i) w = obs d i w).
  { intros w i Hi. unfold obs. rewrite Hrun by auto. destruct (drun (d_nodes d) i w) as [j|] eqn:Ej; simpl; auto.
    f_equal. apply A6. eapply drun_lt; eauto. }
  split.
  - intros a b Ha Hb Hab. destruct (A5 a Ha) as (i & Hi & <-), (A5 b Hb) as (j & Hj & <-).
    destruct (B2 i j Hi Hj Hab) as [w Hw]. exists w. rewrite !Hobs by auto. auto.
  - intros w. rewrite A3. apply Hobs; auto.
Qed.

(** *** Inversion of build *)
Section BuildInv.
  Context {E T : Type}.
  Variables (P PErr : Type) (parse : P -> hir + PErr).

  Lemma dfa_of_mono order fuel fuel' t r : dfa_of order fuel t = Ok r -> fuel <= fuel' -> dfa_of order fuel' t = Ok r.
  Proof.
    unfold dfa_of. destruct (eps_rec (tn_nodes t) (tn_begin t)) as [b| |]; cbn [bind]; try discriminate.
    destruct (loop (dfa_step (tn_nodes t)) fuel (mk_dstate [[]] [(b, 0)] [b] [])) as [st| |] eqn:El; cbn [bind]; try discriminate.
    intros H Hle. erewrite loop_mono; [|exact El|discriminate|exact Hle]. auto.
  Qed.

  Lemma build_mono env fuel fuel' (patterns : list (P * (list N -> list T -> E))) r :
    build P PErr parse env fuel patterns = BOk r -> fuel <= fuel' -> build P PErr parse env fuel' patterns = BOk r.
  Proof.
    unfold build. rewrite split_map. destruct (parse_all P PErr parse (map fst patterns)) as [hs|e]; [|discriminate].
    destruct (tnfa_of hs) as [nf|e|]; try discriminate.
    destruct (dfa_of (be_order env) fuel nf) as [[d ws]| |] eqn:Ed; cbn [bind of_res]; try discriminate.
    intros H Hle. rewrite (dfa_of_mono _ _ _ _ _ Ed Hle). auto.
  Qed.

  Theorem build_inv env fuel (patterns : list (P * (list N -> list T -> E))) t ws :
    (forall p h, parse p = inl h -> wf_hir h) -> env_ok env ->
    build P PErr parse env fuel patterns = BOk (t, ws) ->
    exists hirs, Forall2 (fun x h => parse (fst x) = inl h) patterns hirs /\ Forall supported hirs /\ Forall wf_hir hirs /\
      built hirs (map snd patterns) env t /\ warn_good (length hirs) (pat_lang hirs) ws.
  Proof.
    intros Hwf He Hb.
    assert (Hp : exists hirs, parse_all P PErr parse (map fst patterns) = inl hirs).
    { unfold build in Hb. rewrite split_map in Hb. destruct (parse_all P PErr parse (map fst patterns)); [eauto|discriminate]. }
    destruct Hp as [hirs Hp]. apply parse_all_ok in Hp.
    assert (Hp' : Forall2 (fun x h => parse (fst x) = inl h) patterns hirs).
    { clear -Hp. revert hirs Hp. induction patterns as [|x l IH]; simpl; intros hirs Hp; inversion Hp; subst; constructor; auto. }
    assert (Hw : Forall wf_hir hirs).
    { clear -Hp' Hwf. induction Hp'; constructor; eauto. }
    exists hirs. split; auto.
    destruct (@build_ok E T P PErr parse Hwf patterns hirs Hp') as [(F & HF)|(i & h & e & _ & _ & _ & Hbad)].
    - destruct (HF env (max F fuel) He (Nat.le_max_l _ _)) as (t' & ws' & Hb' & H1 & H2 & H3).
      rewrite (build_mono _ _ _ _ _ Hb (Nat.le_max_r F fuel)) in Hb'. inversion Hb'; subst. auto.
    - rewrite Hbad in Hb. discriminate.
  Qed.
End BuildInv.

(** *** Greediness *)
(** the expression with every repetition made greedy *)
Fixpoint greedy_all (h : hir) : hir :=
  match h with
  | HRep k _ h => HRep k true (greedy_all h)
  | HGroup h => HGroup (greedy_all h)
  | HConcat hs => HConcat (map greedy_all hs)
  | HAlt hs => HAlt (map greedy_all hs)
  | _ => h
  end.

Definition cat_go := fix go l h :=
         match l with
         | [] => NPanic
         | [x] => nfa_of x h
         | x :: l' =>
             ndo (h1, r) <- go l' h;
             ndo (h2, n) <- nfa_of x h1;
             NOk (add_eps h2 (nfa_end n) (nfa_begin r),
                  mk_nfa (nfa_nodes r ++ nfa_nodes n) (nfa_begin n) (nfa_end r))
         end.
Lemma cat_go_cons x y l h : cat_go (x :: y :: l) h = ndo (h1, r) <- cat_go (y :: l) h;
             ndo (h2, n) <- nfa_of x h1;
             NOk (add_eps h2 (nfa_end n) (nfa_begin r),
                  mk_nfa (nfa_nodes r ++ nfa_nodes n) (nfa_begin n) (nfa_end r)).
Proof. reflexivity. Qed.

Definition alt_go b e := fix go l h nodes :=
           match l with
           | [] => NOk (h, nodes)
           | x :: l' =>
               ndo (h1, n) <- nfa_of x h;
               go l' (add_eps (add_eps h1 b (nfa_begin n)) (nfa_end n) e) (nodes ++ nfa_nodes n)
           end.
Lemma alt_go_cons b e x l h nodes : alt_go b e (x :: l) h nodes = ndo (h1, n) <- nfa_of x h;
               alt_go b e l (add_eps (add_eps h1 b (nfa_begin n)) (nfa_end n) e) (nodes ++ nfa_nodes n).
Proof. reflexivity. Qed.

Lemma nfa_of_greedy h : forall hp, nfa_of (greedy_all h) hp = nfa_of h hp.
Proof.
  induction h as [|c|b|rs|rs| | |kd g k IH|k IH|hs IH|hs IH] using hir_ind'; intros hp; auto.
  - cbn [greedy_all nfa_of]. rewrite IH. reflexivity.
  - cbn [greedy_all nfa_of]. apply IH.
  - change (cat_go (map greedy_all hs) hp = cat_go hs hp). revert hp. induction IH as [|x l Hx Hl IHl]; intros hp; auto. destruct l as [|y l]; [apply Hx|].
    cbn [map] in *. rewrite !cat_go_cons, IHl. destruct (cat_go (y :: l) hp) as [[h1 r]|e|]; auto. cbn [nbind]. rewrite Hx. reflexivity.
  - cbn [greedy_all nfa_of]. cbv zeta. generalize (hp ++ [nnode_default; nnode_default]), [length hp; S (length hp)]. intros h0 nodes.
    assert (G : alt_go (length hp) (S (length hp)) (map greedy_all hs) h0 nodes = alt_go (length hp) (S (length hp)) hs h0 nodes);
      [|unfold alt_go in G; rewrite G; reflexivity].
    revert h0 nodes. induction IH as [|x l Hx Hl IHl]; intros h0 nodes; auto. cbn [map]. rewrite !alt_go_cons, Hx.
    destruct (nfa_of x h0) as [[h1 n]|e|]; auto. cbn [nbind]. apply IHl.
Qed.

Lemma tnfa_of_greedy hs hs' : map greedy_all hs = map greedy_all hs' -> tnfa_of hs = tnfa_of hs'.
Proof.
  intros H. unfold tnfa_of. assert (G : forall hs hs', map greedy_all hs = map greedy_all hs' -> forall a b c, tnfa_loop hs a b c = tnfa_loop hs' a b c); [|rewrite (G _ _ H); reflexivity].
  clear. induction hs as [|h hs IH]; intros [|h' hs'] H a b c; try discriminate; auto. simpl in H. inversion H as [[H1 H2]]. cbn [tnfa_loop].
  rewrite <- (nfa_of_greedy h), H1, nfa_of_greedy. destruct (nfa_of h' []) as [[hp n]|e|]; auto. cbn [nbind].
  destruct (embed hp n (length a)) as [[[news b'] e]|e|]; auto. cbn [nbind]. apply IH; auto.
Qed.

Theorem build_greedy {P1 P2 PErr E T} (parse1 : P1 -> hir + PErr) (parse2 : P2 -> hir + PErr) env fuel
      (p1 : list (P1 * (list N -> list T -> E))) (p2 : list (P2 * (list N -> list T -> E))) :
  Forall2 (fun x y => snd x = snd y /\ exists h h', parse1 (fst x) = inl h /\ parse2 (fst y) = inl h' /\ greedy_all h = greedy_all h') p1 p2 ->
  build P1 PErr parse1 env fuel p1 = build P2 PErr parse2 env fuel p2.
Proof.
  intros H. unfold build. rewrite !split_map.
  assert (Hm : map snd p1 = map snd p2) by (induction H as [|x y l l' [Hx _] Hl IH]; simpl; congruence).
  assert (G : exists hs hs', parse_all P1 PErr parse1 (map fst p1) = inl hs /\ parse_all P2 PErr parse2 (map fst p2) = inl hs' /\ map greedy_all hs = map greedy_all hs').
  { clear Hm. induction H as [|x y l l' (_ & h & h' & E1 & E2 & E3) Hl (hs & hs' & I1 & I2 & I3)]; [exists [], []; auto|].
    exists (h :: hs), (h' :: hs'). simpl. rewrite E1, E2, I1, I2, E3, I3. auto. }
  destruct G as (hs & hs' & E1 & E2 & E3). rewrite E1, E2, (tnfa_of_greedy _ _ E3), Hm. reflexivity.
Qed.

(** *** Languages of the patterns *)
(** the regular language of pattern [p] *)
Definition regex_lang (hirs : list hir) (p : nat) : lang := fun w => exists h, nth_error hirs p = Some h /\ matches h w.

Lemma first_of_ext n (L L' : nat -> lang) : (forall p w, p < n -> (L p w <-> L' p w)) -> forall w p, first_of n L w p <-> first_of n L' w p.
Proof.
  intros H w p. unfold first_of. split; intros (A & B & C); (split; [|split]); auto; try (apply H; auto; fail).
  - intros p' Hp' Hl. eapply C; eauto. apply H; auto. lia.
  - intros p' Hp' Hl. eapply C; eauto. apply H; auto. lia.
Qed.
Lemma exact_pat_lang hirs : Forall wf_hir hirs -> Forall supported hirs -> Forall (fun h => exact_hir h = true) hirs ->
  forall p w, pat_lang hirs p w <-> regex_lang hirs p w.
Proof.
  intros H1 H2 H3 p w. rewrite Forall_forall in H1, H2, H3. unfold pat_lang, regex_lang.
  split; intros (h & Hh & Hw); exists h; split; auto; (apply exact_sem; [apply H1|apply H2|apply H3|]); auto; eapply nth_error_In; eauto.
Qed.

(** *** Successive calls *)
Section Calls.
  Context {E T : Type}.
  Variable t : tokenizer E T.
  Variable f : T -> N.

  (** [calls s es s']: successive calls of next from [s] return the tokens [es] and leave [s'] *)
  Inductive calls : titer -> list E -> titer -> Prop :=
  | calls_nil s : calls s [] s
  | calls_cons s e s1 es s' : next t f s = Ok (Some e, s1) -> calls s1 es s' -> calls s (e :: es) s'.
  (** any calls, also after None *)
  Inductive reached : titer -> titer -> Prop :=
  | reached_refl s : reached s s
  | reached_step s r s1 s' : next t f s = Ok (r, s1) -> reached s1 s' -> reached s s'.

  Hypothesis Ht : tok_ok t.
  Lemma calls_ok s es s' : calls s es s' ->
    exists items, Forall2 (made t f) es items /\ pend s = concat (map snd items) ++ pend s'.
  Proof.
    induction 1 as [s|s e s1 es s' Hn Hc (items & I1 & I2)]; [exists []; split; [constructor|auto]|].
    destruct (next_ok t f Ht s) as (r & s2 & seen & En & [Hr _ _ _ _]). rewrite Hn in En. inversion En; subst r s2.
    destruct Hr as (k & p & m & Hl & Hm & He & Hp). exists ((p, firstn k (pend s)) :: items). split.
    - constructor; auto. exists m. auto.
    - simpl. rewrite <- app_assoc, <- I2, Hp. symmetry. apply firstn_skipn.
  Qed.
End Calls.

(** *** The behaviour of [next] depends only on acceptance, being stuck, and the makers *)
Lemma next_same {E T} (t t' : tokenizer E T) f : tok_ok t -> tok_ok t' ->
  (forall w p, tok_accepts t w p <-> tok_accepts t' w p) -> (forall w, tok_run t w = None <-> tok_run t' w = None) ->
  tk_makers t = tk_makers t' -> forall s, next t f s = next t' f s.
Proof.
  intros Ht Ht' Ha Hd Hm s.
  destruct (next_ok t f Ht s) as (r & s1 & k & E1 & [R1 S1 A1 D1 P1]), (next_ok t' f Ht' s) as (r' & s2 & k' & E2 & [R2 S2 A2 D2 P2]).
  rewrite E1, E2.
  assert (k = k') as <-.
  { destruct (Nat.lt_trichotomy k k') as [H|[H|H]]; auto; exfalso.
    - destruct D1 as [D1|D1]; [lia|]. apply (A2 k H). apply Hd; auto.
    - destruct D2 as [D2|D2]; [lia|]. apply (A1 k' H). apply Hd; auto. }
  assert (Hiter : ti_iter s1 = ti_iter s2) by congruence.
  assert (Heq : pend s1 = pend s2 -> s1 = s2).
  { unfold pend. rewrite Hiter. intros H. apply app_inv_tail in H. destruct s1, s2; simpl in *; congruence. }
  destruct r as [e|], r' as [e'|].
  - destruct R1 as (n & p & m & L1 & M1 & -> & Q1), R2 as (n' & p' & m' & L2 & M2 & -> & Q2).
    apply (longest_ext _ _ _ _ _ _ Ha) in L1. destruct (longest_det _ _ (tok_accepts_det t') _ _ _ _ _ L1 L2) as [<- <-].
    rewrite Hm in M1. assert (m = m') as <- by congruence. rewrite Heq; congruence.
  - destruct R1 as (n & p & m & (L1 & L2 & _) & _), R2 as (N2 & _). exfalso. eapply (N2 n p); auto. apply Ha; auto.
  - destruct R2 as (n & p & m & (L1 & L2 & _) & _), R1 as (N2 & _). exfalso. eapply (N2 n p); auto. apply Ha; auto.
  - destruct R1 as [_ Q1], R2 as [_ Q2]. rewrite Heq; congruence.
Qed.

Lemma collect_same {E T} (t t' : tokenizer E T) f : (forall s, next t f s = next t' f s) -> forall fuel s, tok_collect fuel t f s = tok_collect fuel t' f s.
Proof.
  intros H fuel. unfold tok_collect. generalize (@nil E). induction fuel as [|fuel IH]; intros acc s; cbn [loop]; auto.
  unfold collect_step. cbn [fst snd]. rewrite H. destruct (next t' f s) as [[[e|] s']| |]; auto.
Qed.

Section Seeds.
  Context {E T : Type}.
  Variables (P PErr : Type) (parse : P -> hir + PErr).
  Hypothesis Hwf : forall p h, parse p = inl h -> wf_hir h.

  (** being stuck does not depend on the environment *)
  Lemma build_stuck (patterns : list (P * (list N -> list T -> E))) :
    exists nodes, forall env fuel t ws, env_ok env -> env_honest env -> build P PErr parse env fuel patterns = BOk (t, ws) ->
      forall w, tok_run t w = None <-> drun nodes 0 w = None.
  Proof.
    destruct (parse_all P PErr parse (map fst patterns)) as [hirs|e] eqn:Hp.
    2:{ exists []. intros env fuel t ws _ _. unfold build. rewrite split_map, Hp. discriminate. }
    assert (Hw : Forall wf_hir hirs).
    { apply parse_all_ok in Hp. clear -Hp Hwf. induction Hp; constructor; eauto. }
    destruct (tnfa_of_spec hirs Hw) as [(nf & En & Hg)|(i & h & e & En & _)].
    2:{ exists []. intros env fuel t ws _ _. unfold build. rewrite split_map, Hp, En. discriminate. }
    destruct (dfa_of_spec hirs nf Hg) as (F & nodes & HF). exists nodes. intros env fuel t ws [Eo Em] Hh Hb w.
    apply (build_mono _ _ _ _ _ (max F fuel)) in Hb; [|lia]. destruct (HF (be_order env) (max F fuel) Eo) as (en & ws' & Ed & Hgood & _); [lia|].
    unfold build in Hb. rewrite split_map, Hp, En, Ed in Hb. cbn [bind] in Hb.
    destruct (minify_good (be_min env) _ _ _ Em Hh Hgood) as (d' & E2 & G2 & _ & Ho). rewrite E2 in Hb. cbn [bind] in Hb.
    destruct (@tok_new_ok E T d' (map snd patterns) (dg_target _ _ _ G2) (dg_begin _ _ _ G2) (fun i p H => proj1 (dg_keys _ _ _ G2 i p H)) (dg_nodup _ _ _ G2)) as (en' & Et & _).
    rewrite Et in Hb. cbn [bind of_res] in Hb. inversion Hb; subst t ws'. unfold tok_run. cbn [tk_goto tk_begin].
    specialize (Ho w). unfold obs in Ho. cbn [d_nodes d_begin d_end] in Ho.
    destruct (drun (d_nodes d') (d_begin d') w), (drun nodes 0 w); simpl in Ho; try discriminate; split; congruence.
  Qed.

  Theorem build_same (p1 p2 : list (P * (list N -> list T -> E))) env1 env2 fuel1 fuel2 t1 ws1 t2 ws2 :
    p1 = p2 -> env_ok env1 -> env_honest env1 -> env_ok env2 -> env_honest env2 ->
    build P PErr parse env1 fuel1 p1 = BOk (t1, ws1) -> build P PErr parse env2 fuel2 p2 = BOk (t2, ws2) ->
    (forall f s, next t1 f s = next t2 f s) /\ (forall x, In x ws1 <-> In x ws2).
  Proof.
    intros <- O1 H1 O2 H2 B1 B2.
    destruct (build_inv P PErr parse _ _ _ _ _ Hwf O1 B1) as (hirs & F1 & S1 & _ & T1 & W1).
    destruct (build_inv P PErr parse _ _ _ _ _ Hwf O2 B2) as (hirs' & F2 & _ & _ & T2 & W2).
    assert (hirs' = hirs) as ->.
    { clear -F1 F2. revert hirs' F2. induction F1 as [|x h l hs Hx Hl IH]; intros hirs' F2; inversion F2; subst; auto. f_equal; [congruence|auto]. }
    assert (Hlen : length (map snd p1) = length hirs) by (rewrite map_length; eapply Forall2_len; eauto).
    split.
    - intros f s. apply next_same.
      + apply T1; auto.
      + apply T2; auto.
      + intros w p. rewrite (bt_accept _ _ _ _ T1 H1), (bt_accept _ _ _ _ T2 H2). tauto.
      + destruct (build_stuck p1) as (nodes & Hn). intros w. rewrite (Hn env1 fuel1 t1 ws1), (Hn env2 fuel2 t2 ws2) by auto. tauto.
      + rewrite (bt_makers _ _ _ _ T1), (bt_makers _ _ _ _ T2). auto.
    - intros [a b]. rewrite (W1 a b), (W2 a b). tauto.
  Qed.

  (** *** tokenizer! *)
  Theorem macro_same (rules : list (P * (list N -> list T -> E))) env1 env2 order fuel1 fuel2 t1 t2 ws2 :
    env_ok env1 -> env_honest env1 -> (forall l, Permutation (order l) l) -> env_ok env2 -> env_honest env2 ->
    tokenizer_macro P PErr parse env1 order fuel1 rules = BOk t1 -> build P PErr parse env2 fuel2 rules = BOk (t2, ws2) ->
    forall f s, next t1 f s = next t2 f s.
  Proof.
    intros O1 H1 Ho O2 H2 Hm B2 f s.
    destruct (build P PErr parse env1 fuel1 (map (fun r => (fst r, unit_maker)) rules)) as [[tu wu]|e| |] eqn:Bu.
    2-4: unfold tokenizer_macro in Hm; rewrite split_map, map_map in Hm; rewrite Bu in Hm; discriminate.
    assert (Hff : map fst (map (fun r => (fst r, unit_maker)) rules) = map fst rules) by (rewrite map_map; reflexivity).
    pose proof (build_tables parse env1 fuel1 (map (fun r => (fst r, unit_maker)) rules) rules Hff) as Ht. rewrite Bu in Ht.
    destruct (build P PErr parse env1 fuel1 rules) as [[tb wb]|e| |] eqn:Bb; try tauto. destruct Ht as (Ht1 & Ht2 & Ht3 & _).
    destruct (build_inv P PErr parse _ _ _ _ _ Hwf O1 Bb) as (hirs & F1 & S1 & _ & T1 & _).
    destruct (macro_ok P PErr parse rules env1 fuel1 order tu wu O1 Ho Bu) as (t' & Em & M1 & M2 & M3 & M4).
    { intros i nd. rewrite Ht1. apply T1. }
    { rewrite Ht3. apply T1. }
    rewrite Em in Hm. inversion Hm; subst t1.
    rewrite <- (proj1 (build_same rules rules env1 env2 fuel1 fuel2 tb wb t2 ws2 eq_refl O1 H1 O2 H2 Bb B2) f s).
    assert (Hlen : length (map snd rules) = length hirs) by (rewrite map_length; eapply Forall2_len; eauto).
    destruct (bt_ok _ _ _ _ T1 Hlen) as [K1 K2 K3].
    assert (Hrun : forall w, tok_run t' w = tok_run tb w) by (intros w; unfold tok_run; rewrite M1, M2, Ht1, Ht2; reflexivity).
    apply next_same.
    - split.
      + rewrite M1, M2, Ht1, Ht2. auto.
      + rewrite M1, Ht1. auto.
      + intros n p. rewrite M3, M4, Ht3, <- (bt_makers _ _ _ _ T1). apply K3.
    - split; auto.
    - intros w p. unfold tok_accepts. rewrite Hrun. split; intros (n & A & B); exists n; (split; [auto|]); [rewrite <- Ht3, <- M3|rewrite M3, Ht3]; auto.
    - intros w. rewrite Hrun. tauto.
    - rewrite M4, (bt_makers _ _ _ _ T1). reflexivity.
  Qed.

  Theorem macro_fails (rules : list (P * (list N -> list T -> E))) env order fuel : env_ok env ->
    (tokenizer_macro P PErr parse env order fuel rules = BPanic <-> (exists e, build P PErr parse env fuel rules = BErr e) \/ build P PErr parse env fuel rules = BPanic).
  Proof.
    intros He. unfold tokenizer_macro. rewrite split_map, map_map.
    assert (Hff : map fst (map (fun r : P * (list N -> list T -> E) => (fst r, unit_maker)) rules) = map fst rules) by (rewrite map_map; reflexivity).
    pose proof (build_tables parse env fuel (map (fun r => (fst r, unit_maker)) rules) rules Hff) as Ht.
    destruct (build P PErr parse env fuel (map (fun r => (fst r, unit_maker)) rules)) as [[tu wu]|e| |], (build P PErr parse env fuel rules) as [[tb wb]|e'| |]; try tauto.
    - split; [discriminate|]. intros [[e H]|H]; discriminate.
    - subst. split; eauto.
    - split; [discriminate|]. intros [[e H]|H]; discriminate.
  Qed.
End Seeds.

(** *** Which construction error is reported *)
(** the first unsupported feature in construction order: the parts of a concatenation are
    built from the last to the first, everything else from the first to the last *)
Fixpoint first_err (h : hir) : option nerr :=
  match h with
  | HEmpty | HLitU _ | HClassU _ => None
  | HLitB _ => Some EByteLiteral
  | HClassB _ => Some EBytesClass
  | HAnchor => Some EAnchor
  | HWordB => Some EWordBoundary
  | HRep _ _ h => first_err h
  | HGroup h => first_err h
  | HConcat hs => (fix go l := match l with [] => None | x :: l' => match go l' with Some e => Some e | None => first_err x end end) hs
  | HAlt hs => (fix go l := match l with [] => None | x :: l' => match first_err x with Some e => Some e | None => go l' end end) hs
  end.

Lemma first_err_uses h : forall e, first_err h = Some e -> uses h e.
Proof.
  induction h as [|c|b|rs|rs| | |kd g k IH|k IH|hs IH|hs IH] using hir_ind'; intros e H; cbn [first_err] in H; try discriminate; try (inversion H; subst; constructor; auto; fail).
  - assert (G : exists h, In h hs /\ uses h e); [|destruct G as (h & G1 & G2); eapply uses_concat; eauto].
    revert H. induction IH as [|x l Hx Hl IHl]; [discriminate|]. intros H. simpl in H.
    destruct (_ l) as [e'|] eqn:El in H; [inversion H; subst|].
    + destruct (IHl El) as (h & G1 & G2). exists h. simpl; auto.
    + exists x. simpl. auto.
  - assert (G : exists h, In h hs /\ uses h e); [|destruct G as (h & G1 & G2); eapply uses_alt; eauto].
    revert H. induction IH as [|x l Hx Hl IHl]; [discriminate|]. intros H. simpl in H.
    destruct (first_err x) as [e'|] eqn:El in H; [inversion H; subst|].
    + exists x. simpl. auto.
    + destruct (IHl H) as (h & G1 & G2). exists h. simpl; auto.
Qed.
Lemma first_err_none h : first_err h = None -> supported h.
Proof.
  induction h as [|c|b|rs|rs| | |kd g k IH|k IH|hs IH|hs IH] using hir_ind'; intros H e Hu; cbn [first_err] in H; inversion Hu; subst; try discriminate.
  - eapply IH; eauto.
  - eapply IH; eauto.
  - revert H. match goal with K : In h hs |- _ => revert K end. clear Hu. induction IH as [|x l Hx Hl IHl]; [intros []|]. intros Hin H. simpl in H.
    destruct (_ l) as [e'|] eqn:El in H; [discriminate|]. destruct Hin as [->|Hin]; [eapply Hx; eauto|apply IHl; auto].
  - revert H. match goal with K : In h hs |- _ => revert K end. clear Hu. induction IH as [|x l Hx Hl IHl]; [intros []|]. intros Hin H. simpl in H.
    destruct (first_err x) as [e'|] eqn:El in H; [discriminate|]. destruct Hin as [->|Hin]; [eapply Hx; eauto|apply IHl; auto].
Qed.

Definition noerr {A} (r : nres A) : Prop := forall e, r <> NErr e.
Lemma noerr_bind {A B} (r : nres A) (f : A -> nres B) : noerr r -> (forall a, noerr (f a)) -> noerr (nbind r f).
Proof. intros H1 H2 e. destruct r; cbn [nbind]; [apply H2|exfalso; eapply H1; eauto|discriminate]. Qed.
Lemma noerr_ok {A} (a : A) : noerr (NOk a).
Proof. intros e; discriminate. Qed.
Lemma noerr_opt {A} (o : option A) : noerr (n_of_opt o).
Proof. intros e; destruct o; discriminate. Qed.
Lemma noerr_mapM {A B} (f : A -> nres B) l : (forall a, noerr (f a)) -> noerr (nmapM f l).
Proof. intros H. induction l as [|x l IH]; [apply noerr_ok|]. simpl. apply noerr_bind; auto. intros y. apply noerr_bind; auto. intros z. apply noerr_ok. Qed.
Lemma noerr_copy f n : noerr (copy_node f n).
Proof.
  unfold copy_node. apply noerr_bind; [apply noerr_mapM; intros; apply noerr_opt|]. intros e. apply noerr_bind; [|intros; apply noerr_ok].
  apply noerr_mapM. intros kv. apply noerr_bind; [|intros; apply noerr_ok]. apply noerr_mapM; intros; apply noerr_opt.
Qed.
Lemma noerr_clone h n : noerr (clone h n).
Proof.
  unfold clone. cbv zeta. apply noerr_bind; [apply noerr_mapM; intros; apply noerr_opt|]. intros olds. apply noerr_bind; [apply noerr_mapM; intros; apply noerr_copy|].
  intros news. apply noerr_bind; [apply noerr_opt|]. intros b. apply noerr_bind; [apply noerr_opt|]. intros e. apply noerr_ok.
Qed.
Lemma noerr_chain k i : forall h nodes e, noerr (chain k i h nodes e).
Proof. induction k as [|k IH]; intros h nodes e; cbn [chain]; [apply noerr_ok|]. apply noerr_bind; [apply noerr_clone|]. intros [h1 c]. apply IH. Qed.
Lemma noerr_chain_skip k i : forall h nodes e, noerr (chain_skip k i h nodes e).
Proof. induction k as [|k IH]; intros h nodes e; cbn [chain_skip]; [apply noerr_ok|]. apply noerr_bind; [apply noerr_clone|]. intros [h1 c]. apply IH. Qed.
Lemma noerr_rep k h i : noerr (mk_rep k h i).
Proof.
  assert (G : forall n, noerr (mk_exactly n h i)).
  { intros n. unfold mk_exactly. apply noerr_bind; [apply noerr_clone|]. intros [h1 c]. apply noerr_bind; [apply noerr_chain|]. intros [[h2 nodes] e]. apply noerr_ok. }
  assert (G2 : forall n m, noerr (mk_bounded n m h i)).
  { intros n m. unfold mk_bounded. apply noerr_bind; [apply noerr_clone|]. intros [h1 c]. apply noerr_bind; [apply noerr_chain|]. intros [[h2 nodes] e].
    apply noerr_bind; [apply noerr_chain_skip|]. intros [[h3 nodes'] e']. apply noerr_ok. }
  assert (G3 : forall m, noerr (mk_bounded0 m h i)).
  { intros m. unfold mk_bounded0. apply noerr_bind; [apply noerr_clone|]. intros [h1 c]. apply noerr_bind; [apply noerr_chain_skip|]. intros [[h2 nodes] e]. apply noerr_ok. }
  assert (G4 : forall n, noerr (mk_at_least n h i)).
  { intros n. unfold mk_at_least. apply noerr_bind; [apply noerr_clone|]. intros [h1 c]. apply noerr_bind; [apply noerr_chain|]. intros [[h2 nodes] e]. apply noerr_ok. }
  assert (G5 : forall n m, noerr (if Nat.eqb n m then mk_exactly n h i else if Nat.ltb n m then mk_bounded n m h i else NPanic)).
  { intros n m. destruct (Nat.eqb n m); auto. destruct (Nat.ltb n m); auto. intros e; discriminate. }
  destruct k as [| | |[|[|n]]|[|n]|[|[|n]] [|[|m]]]; try apply noerr_ok; try apply G3; try apply G4; try apply G; cbn [mk_rep]; apply G5.
Qed.

Lemma nfa_of_err h : forall hp, match nfa_of h hp with NOk _ => first_err h = None | NErr e => first_err h = Some e | NPanic => True end.
Proof.
  induction h as [|c|b|rs|rs| | |kd g k IH|k IH|hs IH|hs IH] using hir_ind'; intros hp; try reflexivity.
  - cbn [nfa_of first_err]. specialize (IH hp). destruct (nfa_of k hp) as [[h1 i]|e|]; cbn [nbind]; auto.
    destruct (mk_rep kd h1 i) eqn:Er; auto. exfalso. eapply noerr_rep; eauto.
  - apply IH.
  - change (nfa_of (HConcat hs) hp) with (cat_go hs hp). cbn [first_err]. induction IH as [|x l Hx Hl IHl]; [exact I|]. destruct l as [|y l]; [apply Hx|].
    rewrite cat_go_cons. destruct (cat_go (y :: l) hp) as [[h1 r]|e|]; cbn [nbind].
    + specialize (Hx h1). destruct (nfa_of x h1) as [[h2 n]|e|]; cbn [nbind]; [rewrite IHl; auto|rewrite IHl; auto|exact I].
    + rewrite IHl. auto.
    + auto.
  - cbn [nfa_of first_err]. cbv zeta. generalize (hp ++ [nnode_default; nnode_default]), [length hp; S (length hp)]. intros h0 nodes.
    assert (G : match alt_go (length hp) (S (length hp)) hs h0 nodes with NOk _ => first_err (HAlt hs) = None | NErr e => first_err (HAlt hs) = Some e | NPanic => True end).
    2:{ unfold alt_go in G. destruct (_ hs h0 nodes) as [[a b]|e|]; cbn [nbind]; auto. }
    cbn [first_err]. revert h0 nodes. induction IH as [|x l Hx Hl IHl]; intros h0 nodes; [simpl; reflexivity|]. rewrite alt_go_cons.
    specialize (Hx h0). destruct (nfa_of x h0) as [[h1 n]|e|]; cbn [nbind].
    + rewrite Hx. apply IHl.
    + rewrite Hx. auto.
    + exact I.
Qed.

(** the first error of a list of patterns *)
Fixpoint first_errs (hs : list hir) : option nerr :=
  match hs with [] => None | h :: hs' => match first_err h with Some e => Some e | None => first_errs hs' end end.

Lemma noerr_embed h n b : noerr (embed h n b).
Proof.
  unfold embed. cbv zeta. apply noerr_bind; [apply noerr_opt|]. intros e. apply noerr_bind; [apply noerr_opt|]. intros b'.
  apply noerr_bind; [apply noerr_mapM; intros; apply noerr_opt|]. intros olds. apply noerr_bind; [apply noerr_mapM; intros; apply noerr_copy|].
  intros news. apply noerr_ok.
Qed.
Lemma tnfa_of_err hs : match tnfa_of hs with NOk _ => first_errs hs = None | NErr e => first_errs hs = Some e | NPanic => True end.
Proof.
  assert (G : forall hs a b c, match tnfa_loop hs a b c with NOk _ => first_errs hs = None | NErr e => first_errs hs = Some e | NPanic => True end).
  { clear hs. induction hs as [|h hs' IH]; intros a b c; [simpl; reflexivity|]. cbn [tnfa_loop first_errs]. pose proof (nfa_of_err h []) as Hh.
    destruct (nfa_of h []) as [[hp n]|e|]; cbn [nbind] in *; [|rewrite Hh; reflexivity|exact I]. rewrite Hh.
    destruct (embed hp n (length a)) as [[[news b'] e]|e|] eqn:Ee; cbn [nbind]; auto; [apply IH|]. exfalso. eapply noerr_embed; eauto. }
  unfold tnfa_of. specialize (G hs [] [] []). destruct (tnfa_loop hs [] [] []) as [[[a b] c]|e|]; cbn [nbind]; auto.
Qed.
