(** DFATokenizer::new and the whole of the build by pointers (for C85). *)
From Coq Require Import Permutation.
From Verif Require Import Lib Hir NfaPath NfaModel NfaProofs TokNfa MemModel MemProofs DfaModel DfaEdges DfaTop MinModel MinProofs MinTop TokModel TokProofs TokTop TokMore PlaceSpec PlaceProofs PlaceTop BoxModel BoxSpec BoxNfa BoxDfa BoxMin.

Section New.
  Context {E T : Type}.
  Variables (d : dfa) (b : bdfa) (m : boxes) (makers : list (list N -> list T -> E)).
  Hypothesis R : drep d b m.
  Let vec := bd_vec b.
  Let Hd : NoDup vec := dr_dup _ _ _ R.
  Let HL : length vec = length (d_nodes d) := dr_len _ _ _ R.
  Let ix := combine vec (seq 0 (length vec)).
  Lemma ix_ok j k : index_map d j = Ok k -> aget Nat.eqb (placef vec j) ix = Some k.
  Proof.
    unfold index_map. destruct (Nat.ltb_spec j (length (d_nodes d))) as [Hj|]; [|discriminate]. intros X. injection X as <-. rewrite <- HL in Hj. unfold ix. rewrite (aget_combine vec Hd) by (auto; apply seq_length). rewrite (nth_error_nth' _ 0) by (rewrite seq_length; auto). rewrite seq_nth by auto. reflexivity.
  Qed.
  Lemma goto_ok nd nd2 : mapM (fun kv : crange * nat => do j <- index_map d (snd kv); Ok (fst kv, j)) nd = Ok nd2 ->
    xmap (fun kv : crange * nat => xdo j <- xopt (aget Nat.eqb (snd kv) ix); xret (fst kv, j)) (imgd vec nd) m = XOk nd2 m.
  Proof.
    revert nd2. induction nd as [|[r j] nd IH]; intros nd2 X; cbn [mapM imgd map xmap fst snd] in *; [injection X as <-; reflexivity|]. destruct (index_map d j) as [k| |] eqn:Ej; cbn [bind] in X; try discriminate. destruct (mapM (fun kv : crange * nat => do j <- index_map d (snd kv); Ok (fst kv, j)) nd) as [l| |]; cbn [bind] in X; try discriminate. injection X as <-.
    assert (X1 : (xdo j0 <- xopt (aget Nat.eqb (placef vec j) ix); xret (r, j0)) m = XOk (r, k) m) by (rewrite (xopt_ok _ _ _ _ (ix_ok _ _ Ej)); reflexivity). rewrite (xbind_ok _ _ _ _ _ X1), (xbind_ok _ _ _ _ _ (IH l eq_refl)). reflexivity.
  Qed.
  Lemma gotos_ok : forall l nodes goto, Forall2 (fun a nd => aget Nat.eqb a (bx_dfa m) = Some (imgd vec nd)) l nodes -> mapM (mapM (fun kv : crange * nat => do j <- index_map d (snd kv); Ok (fst kv, j))) nodes = Ok goto ->
    xmap (fun a => xdo nd <- read_d a; xmap (fun kv => xdo j <- xopt (aget Nat.eqb (snd kv) ix); xret (fst kv, j)) nd) l m = XOk goto m.
  Proof.
    intros l nodes goto H. revert goto. induction H as [|a nd l nodes Ha H IH]; intros goto X; cbn [mapM xmap] in *; [injection X as <-; reflexivity|].
    destruct (mapM (fun kv : crange * nat => do j <- index_map d (snd kv); Ok (fst kv, j)) nd) as [nd2| |] eqn:E1; cbn [bind] in X; try discriminate. destruct (mapM (mapM (fun kv : crange * nat => do j <- index_map d (snd kv); Ok (fst kv, j))) nodes) as [rest| |]; cbn [bind] in X; try discriminate. injection X as <-.
    assert (X1 : (xdo nd <- read_d a; xmap (fun kv => xdo j <- xopt (aget Nat.eqb (snd kv) ix); xret (fst kv, j)) nd) m = XOk nd2 m) by (rewrite (xbind_ok _ _ m (imgd vec nd) m) by (unfold read_d; rewrite Ha; reflexivity); apply goto_ok; auto). rewrite (xbind_ok _ _ _ _ _ X1), (xbind_ok _ _ _ _ _ (IH rest eq_refl)). reflexivity.
  Qed.
  Lemma ends_ok l : forall en en2, foldM (fun en kv => do j <- index_map d (fst kv); Ok (aset Nat.eqb j (snd kv) en)) l en = Ok en2 ->
    xfold (fun en kv => xdo j <- xopt (aget Nat.eqb (fst kv) ix); xret (aset Nat.eqb j (snd kv) en)) (map (fun x => (placef vec (fst x), snd x)) l) en m = XOk (en2 : list (nat * nat)) m.
  Proof.
    induction l as [|[i p] l IH]; intros en en2 X; cbn [foldM map xfold fst snd] in *; [injection X as <-; reflexivity|]. destruct (index_map d i) as [k| |] eqn:Ei; cbn [bind] in X; try discriminate.
    assert (X1 : (xdo j <- xopt (aget Nat.eqb (placef vec i) ix); xret (aset Nat.eqb j p en)) m = XOk (aset Nat.eqb k p en) m) by (rewrite (xopt_ok _ _ _ _ (ix_ok _ _ Ei)); reflexivity). rewrite (xbind_ok _ _ _ _ _ X1). apply IH. auto.
  Qed.
  Theorem x_tok_new_ok t : tok_new d makers = Ok t -> exists m2, x_tok_new b makers m = XOk t m2 /\ bx_nfa m2 = [] /\ bx_dfa m2 = [].
  Proof.
    intros X. unfold tok_new in X. destruct (mapM (mapM (fun kv : crange * nat => do j <- index_map d (snd kv); Ok (fst kv, j))) (d_nodes d)) as [goto| |] eqn:E1; cbn [bind] in X; try discriminate. destruct (index_map d (d_begin d)) as [bg| |] eqn:E2; cbn [bind] in X; try discriminate.
    destruct (foldM (fun en kv => do j <- index_map d (fst kv); Ok (aset Nat.eqb j (snd kv) en)) (d_end d) []) as [en| |] eqn:E3; cbn [bind] in X; try discriminate. injection X as <-.
    assert (F : Forall2 (fun a nd => aget Nat.eqb a (bx_dfa m) = Some (imgd vec nd)) vec (d_nodes d)).
    { assert (G : forall l nodes, length l = length nodes -> (forall i a nd, nth_error l i = Some a -> nth_error nodes i = Some nd -> aget Nat.eqb a (bx_dfa m) = Some (imgd vec nd)) -> Forall2 (fun a nd => aget Nat.eqb a (bx_dfa m) = Some (imgd vec nd)) l nodes).
      { induction l as [|a l IH]; intros [|nd nodes] Hl H; try discriminate; constructor; [apply (H 0); reflexivity|]. apply IH; [simpl in Hl; lia|]. intros i. apply (H (S i)). }
      apply G; auto. intros i a nd Ea En. pose proof (dr_cell _ _ _ R i nd En) as C. fold vec in C. assert (Hi : i < length vec) by (apply nth_error_Some; congruence). rewrite (placef_nth _ _ Hi) in Ea. congruence. }
    unfold x_tok_new. fold vec ix. rewrite (xbind_ok _ _ _ _ _ (gotos_ok _ _ _ F E1)). pose proof (dr_begin _ _ _ R) as Eb. fold vec in Eb. rewrite Eb, (xopt_ok _ _ _ _ (ix_ok _ _ E2)). pose proof (dr_end _ _ _ R) as Ee. fold vec in Ee. rewrite Ee, (xbind_ok _ _ _ _ _ (ends_ok _ _ _ E3)).
    destruct (free_d_all vec m Hd) as (m2 & A & B & C). { intros a Ha. apply In_nth_error in Ha as [i Ei]. assert (Hi : i < length vec) by (apply nth_error_Some; congruence). rewrite HL in Hi. apply nth_error_Some in Hi. destruct (nth_error (d_nodes d) i) as [nd|] eqn:En; [|congruence]. pose proof (dr_cell _ _ _ R i nd En) as K. fold vec in K. rewrite placef_nth in Ei by (rewrite HL; apply nth_error_Some; congruence). injection Ei as <-. rewrite K. discriminate. }
    exists m2. rewrite (xbind_ok _ _ _ _ _ A). split; [reflexivity|]. split; [rewrite B; apply R|]. apply aget_empty. intros a. rewrite C. destruct (mem a vec) eqn:Em; auto. destruct (aget Nat.eqb a (bx_dfa m)) eqn:Ea; auto. exfalso. apply mem_nIn in Em. apply Em, (dr_dom _ _ _ R). congruence.
  Qed.
End New.

Theorem x_build_ok {E T} ev hirs (makers : list (list N -> list T -> E)) clock : env_fine ev -> Forall wf_hir hirs ->
  match tnfa_of hirs with
  | NOk t => exists F, forall fuel, F <= fuel -> exists env r m, env_ok env /\ (honest (ev_min ev) -> env_honest env) /\
      x_build ev fuel hirs makers (no_boxes clock) = XOk r m /\ bx_nfa m = [] /\ bx_dfa m = [] /\
      (do (d, ws) <- dfa_of (be_order env) fuel t; do d' <- minify (be_min env) d; do tk <- tok_new d' makers; Ok (tk, ws)) = Ok r
  | NErr e => forall fuel, exists m, x_build ev fuel hirs makers (no_boxes clock) = XErr e m /\ bx_nfa m = [] /\ bx_dfa m = []
  | NPanic => False
  end.
Proof.
  intros Hev Hw. pose proof (x_tnfa_ok ev Hev hirs clock) as G. destruct (tnfa_of_spec hirs Hw) as [(t & Et & Hg)|(i & h & e & Et & _)]; rewrite Et in *.
  - destruct G as (b & m & A & R & Z1 & Z2 & Z3). pose proof (tnfa_good_wf _ _ Hg) as Hwf. destruct (x_dfa_ok ev Hev b t m R Hwf Z1 Z2 Z3) as (F & HF). exists F. intros fuel Hf. destruct (HF fuel Hf) as (order & d & ws & b1 & m1 & Ho & Ed & Hgd & B1 & R1).
    set (o := pos_oracle (bd_vec b1) (ev_min ev)). pose proof (pos_oracle_ok (bd_vec b1) _ (ef_min _ Hev)) as Ook. fold o in Ook.
    destruct (minify_ok o d Ook (dg_ranges _ _ _ Hgd) (dg_target _ _ _ Hgd) (dg_begin _ _ _ Hgd) (fun i p H => proj1 (dg_keys _ _ _ Hgd i p H)) (dg_nodup _ _ _ Hgd)) as (d2 & g & Em & A1 & A2 & A3 & A4 & A5 & A6 & A7 & A8 & _).
    destruct (x_minify_ok ev Hev d b1 m1 R1 (dg_target _ _ _ Hgd) (dg_begin _ _ _ Hgd) (fun i p H => proj1 (dg_keys _ _ _ Hgd i p H)) d2 Em) as (b2 & m2 & B2 & R2).
    destruct (@tok_new_ok E T d2 makers A2) as (en & Etk & _ & _).
    { rewrite A3. apply A4. apply Hgd. } { intros k p Hi. destruct (A8 k p Hi) as (j & Hj & <- & _). apply A4. auto. } { exact A7. }
    destruct (x_tok_new_ok d2 b2 m2 makers R2 _ Etk) as (m3 & B3 & C1 & C2).
    exists (mk_env order o), (mk_tok (d_nodes d2) (d_begin d2) en makers, ws), m3. split; [split; auto|]. split; [intros Hh; apply pos_honest; auto|]. split.
    + unfold x_build. rewrite (xbind_ok _ _ _ _ _ A), (xbind_ok _ _ _ _ _ B1), (xbind_ok _ _ _ _ _ B2), (xbind_ok _ _ _ _ _ B3). reflexivity.
    + split; auto. split; auto. cbn [be_order be_min]. rewrite Ed. cbn [bind]. rewrite Em. cbn [bind]. rewrite Etk. reflexivity.
  - intros fuel. destruct G as (m & A & B & C). exists m. unfold x_build, xbind at 1. rewrite A. auto.
Qed.
