(** [nfa_of] on whole expressions. *)
From Verif Require Import Lib Hir NfaPath NfaSem NfaModel NfaProofs NfaCorrect.

Lemma join_ok lo h r n Mr Mn : okh h -> wfn lo h r -> wfn lo h n ->
  (forall p, In p (nfa_nodes n) -> In p (nfa_nodes r) -> False) ->
  mat_eq (mat_of h r) Mr -> mat_eq (mat_of h n) Mn ->
  built lo h (add_eps h (nfa_end n) (nfa_begin r)) (mk_nfa (nfa_nodes r ++ nfa_nodes n) (nfa_begin n) (nfa_end r)) (m_cat Mn Mr).
Proof.
  intros Hok Hwr Hwn Hd Hmr Hmn.
  destruct (wfn_lo _ _ _ Hwn) as [_ Hl].
  assert (Hed := hedge_add_eps h (nfa_end n) (nfa_begin r) ltac:(lia)).
  set (P := fun p => In p (nfa_nodes n)). set (F := fun p => In p (nfa_nodes r)).
  assert (HF : closed (hedge h) F) by apply (wf_closed _ _ _ Hwr).
  assert (HP : closed (hedge h) P) by apply (wf_closed _ _ _ Hwn).
  assert (Hu : P (nfa_end n)) by apply (wf_end _ _ _ Hwn).
  assert (Hv : F (nfa_begin r)) by apply (wf_begin _ _ _ Hwr).
  assert (Hb : P (nfa_begin n)) by apply (wf_begin _ _ _ Hwn).
  assert (He : F (nfa_end r)) by apply (wf_end _ _ _ Hwr).
  assert (Hbf : ~ F (nfa_begin n)) by (intros H; eapply Hd; eauto).
  pose proof (cat_once (hedge h) P F _ _ HF Hd Hu Hv) as Conce.
  pose proof (cat_out (hedge h) P F _ _ HF Hd Hu Hv) as Cout.
  pose proof (cat_from (hedge h) P F _ _ HF Hd Hu Hv) as Cfrom.
  split; [apply okh_add_eps; auto|]. split; [apply agree_add_eps; lia|]. split.
  - split; simpl.
    + apply nodup_app; [apply (wf_nodup _ _ _ Hwr)|apply (wf_nodup _ _ _ Hwn)|]. intros x H1 H2. eapply Hd; eauto.
    + intros p Hp. rewrite add_eps_length. apply in_app_iff in Hp as [Hp|Hp]; [apply (wf_range _ _ _ Hwr)|apply (wf_range _ _ _ Hwn)]; auto.
    + intros x l y Hx Hr. rewrite in_app_iff in *. apply Hed in Hr as [Hr|(-> & -> & ->)]; [|auto].
      destruct Hx as [Hx|Hx]; [left; eapply HF; eauto|right; eapply HP; eauto].
    + apply in_app_iff; auto.
    + apply in_app_iff; auto.
  - intros x y w. unfold mat_of. rewrite path_heap_add_eps by lia. destruct x, y; simpl.
    + rewrite Cout by auto. apply (Hmn B B).
    + rewrite Conce. split.
      * intros [H|(w1 & w2 & -> & H1 & H2)].
        -- exfalso. apply (Hd (nfa_end r)); auto. apply (path_closed _ P _ _ _ HP Hb H).
        -- exists w1, w2. split; auto. split; [apply (Hmn B E)|apply (Hmr B E)]; auto.
      * intros (w1 & w2 & -> & H1 & H2). right. exists w1, w2. split; auto.
        split; [apply (Hmn B E)|apply (Hmr B E)]; auto.
    + unfold l_none. split; [|tauto]. rewrite Cfrom by auto. intros H. apply Hbf. apply (path_closed _ F _ _ _ HF He H).
    + rewrite Cfrom by auto. apply (Hmr E E).
Qed.

Lemma ok_default : ok_node nnode_default.
Proof. intros r s []. Qed.

(** State of the alternation loop *)
Record alting (lo : nat) (h : heap) (b e : nat) (nodes : list nat) (L : lang) : Prop := {
  al_ok : okh h;
  al_nodup : NoDup nodes;
  al_range : forall p, In p nodes -> lo <= p < length h;
  al_closed : closed (hedge h) (fun p => In p nodes);
  al_b : In b nodes;
  al_e : In e nodes;
  al_ne : b <> e;
  al_eout : forall l y, ~ hedge h e l y;
  al_bb : forall w, path (hedge h) b w b <-> w = [];
  al_be : forall w, path (hedge h) b w e <-> L w
}.

Lemma noout_path R x w y : (forall l z, ~ R x l z) -> path R x w y -> w = [] /\ y = x.
Proof. intros Hn H. inversion H; subst; auto; exfalso; eapply Hn; eauto. Qed.

Lemma alting_step lo h b e nodes L h1 n M :
  alting lo h b e nodes L -> built (length h) h h1 n M ->
  let h2 := add_eps (add_eps h1 b (nfa_begin n)) (nfa_end n) e in
  alting lo h2 b e (nodes ++ nfa_nodes n) (l_or L (M B E)) /\ agree lo h h2.
Proof.
  intros [Hok Hnd Hrg Hcl Hb He Hne Heo Hbb Hbe] (Hok1 & Ha & Hw & Hm).
  set (h1b := add_eps h1 b (nfa_begin n)). intros h2.
  destruct (wfn_lo _ _ _ Hw) as [Hn1 Hn2].
  assert (Hbl := Hrg _ Hb). assert (Hel := Hrg _ He). destruct Ha as [Hal Hag].
  assert (Hsame : forall p, In p nodes -> nth_error h1 p = nth_error h p) by (intros p Hp; apply Hag; apply Hrg; auto).
  set (P := fun p => In p nodes). set (C := fun p => In p (nfa_nodes n)).
  assert (HP1 : closed (hedge h1) P).
  { eapply closed_agree; [exact Hcl|]. intros x l y Hx. apply hedge_agree. auto. }
  assert (HC1 : closed (hedge h1) C) by apply (wf_closed _ _ _ Hw).
  assert (HPC : forall p, P p -> C p -> False).
  { intros p Hp Hp'. apply Hrg in Hp. apply (wf_range _ _ _ Hw) in Hp'. lia. }
  assert (Hpath1 : forall x w y, P x -> (path (hedge h) x w y <-> path (hedge h1) x w y)).
  { apply path_frame; [exact Hcl|]. intros x l y Hx. apply hedge_agree; auto. }
  assert (Hcb : C (nfa_begin n)) by apply (wf_begin _ _ _ Hw).
  assert (Hce : C (nfa_end n)) by apply (wf_end _ _ _ Hw).
  assert (Hl1b : length h1b = length h1) by apply add_eps_length.
  assert (Hl2 : length h2 = length h1) by (unfold h2; rewrite add_eps_length; auto).
  assert (Hed1 := hedge_add_eps h1 b (nfa_begin n) ltac:(lia)). fold h1b in Hed1.
  assert (Hed2 := hedge_add_eps h1b (nfa_end n) e ltac:(lia)). fold h2 in Hed2.
  pose proof (cat_once (hedge h1) P C b (nfa_begin n) HC1 HPC Hb Hcb) as Conce.
  pose proof (cat_out (hedge h1) P C b (nfa_begin n) HC1 HPC Hb Hcb) as Cout.
  assert (HeC : ~ C e) by (intros H; apply (HPC e); auto).
  assert (HbC : ~ C b) by (intros H; apply (HPC b); auto).
  assert (Heo1 : forall l y, ~ hedge h1 e l y).
  { intros l y H. apply (Heo l y). apply (hedge_agree h h1 e); auto. }
  assert (Heo1b : forall l y, ~ hedge h1b e l y).
  { intros l y H. apply Hed1 in H as [H|(H & _)]; [eapply Heo1; eauto|congruence]. }
  assert (HE : closed (hedge h1b) (eq e)) by (intros x l y <- Hr; exfalso; eapply Heo1b; eauto).
  assert (HNE : forall p, e <> p -> e = p -> False) by auto.
  assert (Hue : e <> nfa_end n) by (intros Heq; apply HeC; rewrite Heq; auto).
  pose proof (cat_once (hedge h1b) (fun p => e <> p) (eq e) (nfa_end n) e HE HNE Hue eq_refl) as Donce.
  pose proof (cat_out (hedge h1b) (fun p => e <> p) (eq e) (nfa_end n) e HE HNE Hue eq_refl) as Dout.
  assert (Hp1 : forall x w y, path (hedge h1b) x w y <-> path (radd (hedge h1) b (nfa_begin n)) x w y).
  { intros. apply path_ext. auto. }
  assert (Hp2 : forall x w y, path (hedge h2) x w y <-> path (radd (hedge h1b) (nfa_end n) e) x w y).
  { intros. apply path_ext. auto. }
  split.
  - split; auto.
    + unfold h2, h1b. do 2 apply okh_add_eps. auto.
    + apply nodup_app; auto. apply (wf_nodup _ _ _ Hw).
    + intros p Hp. rewrite Hl2. apply in_app_iff in Hp as [Hp|Hp]; [apply Hrg in Hp; lia|].
      apply (wf_range _ _ _ Hw) in Hp. lia.
    + intros x l y Hx Hr. rewrite in_app_iff in *. apply Hed2 in Hr as [Hr|(-> & -> & ->)]; [|auto].
      apply Hed1 in Hr as [Hr|(-> & -> & ->)]; [|auto].
      destruct Hx as [Hx|Hx]; [left; eapply HP1; eauto|right; eapply HC1; eauto].
    + apply in_app_iff; auto.
    + apply in_app_iff; auto.
    + intros l y Hr. apply Hed2 in Hr as [Hr|(Heq & _)]; [eapply Heo1b; eauto|]. congruence.
    + intros w. rewrite Hp2, Dout by auto. rewrite Hp1, Cout by auto. rewrite <- Hpath1 by auto. apply Hbb.
    + intros w. rewrite Hp2, Donce. rewrite Hp1, Cout by auto. rewrite <- Hpath1 by auto. rewrite Hbe.
      unfold l_or. apply or_iff_compat_l. split.
      * intros (w1 & w2 & -> & H1 & H2). apply noout_path in H2 as [-> _]; auto. rewrite app_nil_r.
        apply Hp1, Conce in H1 as [H1|(u1 & u2 & -> & H1 & H2)].
        -- exfalso. apply (HPC (nfa_end n)); auto. apply (path_closed _ P _ _ _ HP1 Hb H1).
        -- apply Hpath1, Hbb in H1; auto. subst. simpl. apply (Hm B E). exact H2.
      * intros H. exists w, []. rewrite app_nil_r. split; auto. split; [|constructor].
        apply Hp1, Conce. right. exists [], w. split; auto. split; [constructor|]. apply (Hm B E) in H. exact H.
  - split; [lia|]. intros p Hp. unfold h2, h1b, add_eps. rewrite !nth_error_upd_nth.
    destruct (Nat.eqb_spec (nfa_end n) p); [lia|]. destruct (Nat.eqb_spec b p); [lia|]. apply Hag. lia.
Qed.

Lemma alt_start h : okh h -> alting (length h) (h ++ [nnode_default; nnode_default]) (length h) (S (length h)) [length h; S (length h)] l_none
   /\ agree (length h) h (h ++ [nnode_default; nnode_default]).
Proof.
  intros Hok.
  assert (Hno : forall x l q, length h <= x -> ~ hedge (h ++ [nnode_default; nnode_default]) x l q).
  { intros x l q Hx (n & Hn & Hr). rewrite nth_error_app2 in Hn by lia.
    assert (n = nnode_default) as ->.
    { destruct (x - length h) as [|[|k]]; simpl in Hn; [congruence|congruence|]. destruct k; discriminate. }
    destruct l; simpl in Hr; [|tauto]. destruct Hr as (? & ? & [] & _). }
  split; [|apply agree_app; lia]. split.
  - apply Forall_app; split; auto. apply Forall_cons; [|apply Forall_cons; [|apply Forall_nil]]; apply ok_default.
  - repeat constructor; simpl; try tauto. intros [H|[]]. lia.
  - intros p [<-|[<-|[]]]; rewrite app_length; simpl; lia.
  - intros x l y [<-|[<-|[]]] H; exfalso; eapply Hno; try exact H; lia.
  - simpl; auto.
  - simpl; auto.
  - lia.
  - intros l y. apply Hno. lia.
  - intros w. split.
    + intros H. apply noout_path in H; [tauto|]. intros; apply Hno; lia.
    + intros ->. constructor.
  - intros w. unfold l_none. split; [|tauto]. intros H. apply noout_path in H; [lia|]. intros; apply Hno; lia.
Qed.

(** Atoms: one node with labelled edges to a second, sink node. *)
Lemma atom_ok h nx (L : lang) :
  okh h -> ok_node (mk_nnode [] nx) ->
  (forall l q, nedge (mk_nnode [] nx) l q -> q = S (length h)) ->
  (forall w, L w <-> exists c, w = [c] /\ nedge (mk_nnode [] nx) (Some c) (S (length h))) ->
  built (length h) h (h ++ [mk_nnode [] nx; nnode_default]) (mk_nfa [length h; S (length h)] (length h) (S (length h))) (m_atom L).
Proof.
  intros Hok Hokn Hq HL. set (h' := h ++ [mk_nnode [] nx; nnode_default]).
  assert (Hb : forall l q, hedge h' (length h) l q <-> nedge (mk_nnode [] nx) l q).
  { intros l q. unfold hedge, h'. rewrite nth_error_app2, Nat.sub_diag by lia. simpl. split.
    - intros (n & Hn & H). congruence.
    - eauto. }
  assert (He : forall l q, ~ hedge h' (S (length h)) l q).
  { intros l q. unfold hedge, h'. rewrite nth_error_app2 by lia. replace (S (length h) - length h) with 1 by lia. simpl.
    intros (n & Hn & H). inversion Hn; subst. destruct l; simpl in H; [|tauto]. destruct H as (? & ? & [] & _). }
  assert (Hbp : forall w y, path (hedge h') (length h) w y <-> (w = [] /\ y = length h) \/ (L w /\ y = S (length h))).
  { intros w y. split.
    - intros H. inversion H; subst; auto.
      + apply Hb in H0. simpl in H0. tauto.
      + apply Hb in H0. assert (y0 = S (length h)) as -> by (eapply Hq; eauto).
        apply noout_path in H1 as [-> ->]; auto. right. split; auto. apply HL. eauto.
    - intros [[-> ->]|[H ->]]; [constructor|]. apply HL in H as (c & -> & Hc).
      eapply p_chr; [apply Hb; eauto|constructor]. }
  split; [|split; [|split]].
  - apply Forall_app; split; auto. apply Forall_cons; [|apply Forall_cons; [|apply Forall_nil]]; auto. apply ok_default.
  - apply agree_app; auto.
  - split; simpl; auto.
    + repeat constructor; simpl; try tauto. intros [H|[]]. lia.
    + intros p [<-|[<-|[]]]; unfold h'; rewrite app_length; simpl; lia.
    + intros x l y [<-|[<-|[]]] H; [|exfalso; eapply He; eauto]. apply Hb in H. apply Hq in H. auto.
  - intros x y w. unfold mat_of. destruct x, y; simpl.
    + rewrite Hbp. unfold l_eps. split; [intros [H|[_ H]]; [tauto|lia]|auto].
    + rewrite Hbp. split; [intros [[_ H]|[H _]]; [lia|auto]|auto].
    + unfold l_none. split; [|tauto]. intros H. apply noout_path in H; auto. lia.
    + unfold l_eps. split; [intros H; apply noout_path in H; tauto|]. intros ->. constructor.
Qed.

(** The class construction inserts pairwise distinct starts. *)
Lemma rset_In {V} (r : crange) (v : V) m : ~ In (fst r) (map (fun x => fst (fst x)) m) ->
  forall x, In x (rset r v m) <-> x = (r, v) \/ In x m.
Proof.
  induction m as [|[r' v'] m IH]; simpl; intros Hn x; [intuition|].
  destruct (N.compare_spec (fst r) (fst r')) as [H|H|H]; simpl.
  - exfalso; apply Hn; auto.
  - intuition.
  - rewrite IH by tauto. intuition.
Qed.

Lemma class_map {V} rs (v : V) : wf_class rs -> forall m,
  (forall a b, In a rs -> In b m -> fst a <> fst (fst b)) ->
  forall x, In x (fold_left (fun m r => rset (fst r, (snd r + 1)%N) v m) rs m) <->
    In x m \/ exists r, In r rs /\ x = ((fst r, (snd r + 1)%N), v).
Proof.
  intros [Hr Hs]. induction rs as [|r rs IH]; simpl; intros m Hd x.
  - split; [auto|]. intros [H|(r & [] & _)]; auto.
  - inversion Hs as [|? ? Hs' Hlt]; subst. rewrite Forall_forall in Hlt.
    inversion Hr as [|? ? [Hr1 _] Hr']; subst.
    assert (Hni : ~ In (fst (fst r, (snd r + 1)%N)) (map (fun x : crange * V => fst (fst x)) m)).
    { simpl. intros H. apply in_map_iff in H as (b & Hb & Hin). apply (Hd r b); auto. }
    rewrite IH; auto.
    + rewrite (rset_In _ _ _ Hni). split.
      * intros [[->|H]|(r' & H & ->)]; eauto.
      * intros [H|(r' & [->|H] & ->)]; eauto.
    + intros a b Ha Hb. apply (rset_In _ _ _ Hni) in Hb as [->|Hb]; [|apply Hd; auto]. simpl.
      intros Heq. specialize (Hlt _ Ha). lia.
Qed.

Lemma all_path_empty h p : 
  (forall l q, hedge h p l q <-> nedge (mk_nnode [p] [((0, max_char + 1)%N, [p])]) l q) ->
  forall w y, path (hedge h) p w y <-> y = p /\ Forall (fun c => (c <= max_char)%N) w.
Proof.
  intros He w y. split.
  - intros H. remember p as x eqn:Ex. assert (Hx : x = p) by auto. clear Ex. revert Hx.
    induction H as [x|x y z w Hr Hp IH|x c y w z Hr Hp IH]; intros ->; auto.
    + apply He in Hr. simpl in Hr. destruct Hr as [<-|[]]. auto.
    + apply He in Hr. destruct Hr as (r & s & [Hin|[]] & Hc & Hy). inversion Hin; subst. destruct Hy as [<-|[]].
      destruct IH as [-> HF]; auto. split; auto. constructor; auto. unfold in_range, max_char in *. cbn [fst snd] in Hc. lia.
  - intros [-> H]. induction H as [|c w Hc HF IH]; [constructor|].
    eapply p_chr; [|exact IH]. apply He. exists (0, max_char + 1)%N, [p]. split; [left; reflexivity|]. split; [|left; reflexivity].
    unfold in_range, max_char in *. cbn [fst snd]. lia.
Qed.

Definition nfa_post (k : hir) (h0 : heap) (r : nres (heap * nfa)) : Prop :=
  (exists h n, r = NOk (h, n) /\ built (length h0) h0 h n (sem k) /\ forall e, ~ uses k e) \/
  (exists e, r = NErr e /\ uses k e).

Lemma nfa_of_spec k : wf_hir k -> forall h0, okh h0 -> nfa_post k h0 (nfa_of k h0).
Proof.
  induction k as [|c|b|rs|rs| | |kd g k IH|k IH|hs IH|hs IH] using hir_ind'; intros Hwf h0 Hok.
  - left. cbn [nfa_of]. cbv zeta. set (p := length h0). set (nd := mk_nnode [p] [((0, max_char + 1)%N, [p])]).
    assert (He : forall l q, hedge (h0 ++ [nd]) p l q <-> nedge nd l q).
    { intros l q. unfold hedge, p. rewrite nth_error_app2, Nat.sub_diag by lia. simpl. split; [intros (n & Hn & H); congruence|eauto]. }
    do 2 eexists. split; [reflexivity|]. split; [|intros e H; inversion H].
    split; [|split; [|split]].
    + apply Forall_app; split; auto. apply Forall_cons; [|apply Forall_nil].
      intros r s [H|[]]; inversion H; subst; simpl. split; [unfold max_char; lia|congruence].
    + apply agree_app; auto.
    + split; simpl; auto.
      * repeat constructor; simpl; tauto.
      * intros q [<-|[]]. rewrite app_length; unfold p; simpl; lia.
      * intros x l y [<-|[]] H. apply He in H. destruct l; simpl in H; [|tauto].
        destruct H as (r & s & [H|[]] & _ & Hy). inversion H; subst. simpl in Hy. tauto.
    + intros x y w. unfold mat_of.
      assert (pt {| nfa_nodes := [p]; nfa_begin := p; nfa_end := p |} x = p) as -> by (destruct x; auto).
      assert (pt {| nfa_nodes := [p]; nfa_begin := p; nfa_end := p |} y = p) as -> by (destruct y; auto).
      rewrite (all_path_empty _ _ He). simpl. tauto.
  - left. simpl. do 2 eexists. split; [reflexivity|]. split; [|intros e H; inversion H].
    apply atom_ok; auto.
    + intros r s [H|[]]. inversion H; subst; simpl. split; [lia|congruence].
    + intros [d|] q; simpl; [|tauto]. intros (r & s & [H|[]] & _ & Hq). inversion H; subst. simpl in Hq. intuition.
    + intros w. split.
      * intros ->. exists c. split; auto. exists (c, c + 1)%N, [S (length h0)]. simpl. repeat split; auto; simpl; lia.
      * intros (d & -> & r & s & [H|[]] & [Hr1 Hr2] & Hq). inversion H; subst. simpl in *. f_equal. lia.
  - right. simpl. eexists; split; [reflexivity|constructor].
  - left. simpl in *. set (nx := fold_left _ rs []).
    assert (Hnx : forall x, In x nx <-> exists r, In r rs /\ x = ((fst r, (snd r + 1)%N), [S (length h0)])).
    { intros x. unfold nx. rewrite class_map; auto. simpl. tauto. }
    do 2 eexists. split; [reflexivity|]. split; [|intros e H; inversion H].
    apply atom_ok; auto.
    + intros r s H. simpl in H. apply Hnx in H as (r' & Hin & Heq). inversion Heq; subst; simpl. split; [|congruence].
      destruct Hwf as [Hr _]. rewrite Forall_forall in Hr. specialize (Hr _ Hin). lia.
    + intros [d|] q; simpl; [|tauto]. intros (r & s & H & _ & Hq). apply Hnx in H as (r' & Hin & Heq). inversion Heq; subst. simpl in Hq. intuition.
    + intros w. split.
      * intros (c & -> & lo & hi & Hin & Hlo & Hhi). exists c. split; auto.
        exists (lo, hi + 1)%N, [S (length h0)]. simpl. split; [apply Hnx; exists (lo, hi); auto|]. split; [split; simpl; lia|auto].
      * intros (d & -> & r & s & H & [Hr1 Hr2] & Hq). simpl in H. apply Hnx in H as ([lo hi] & Hin & Heq). inversion Heq; subst. simpl in *.
        exists d. split; auto. exists lo, hi. repeat split; auto. lia.
  - right. simpl. eexists; split; [reflexivity|constructor].
  - right. simpl. eexists; split; [reflexivity|constructor].
  - right. simpl. eexists; split; [reflexivity|constructor].
  - simpl in *. destruct Hwf as [Hk Hwf]. destruct (IH Hwf h0 Hok) as [(h & n & Hn & (Hok1 & Ha & Hw & Hm) & Hu)|(e & He & Hu)].
    + left. rewrite Hn; simpl. destruct (mk_rep_ok kd _ _ _ _ Hk Hw Hok1 Hm) as (h' & n' & Hk' & Hok' & Ha' & Hw' & Hm').
      do 2 eexists. split; [exact Hk'|]. split.
      * split; auto. split; auto. eapply agree_trans; eauto.
      * intros e H. inversion H; subst. eapply Hu; eauto.
    + right. rewrite He; simpl. eexists; split; [reflexivity|constructor; auto].
  - simpl in *. destruct (IH Hwf h0 Hok) as [(h & n & Hn & Hb & Hu)|(e & He & Hu)].
    + left. do 2 eexists. split; [eauto|]. split; auto. intros e H; inversion H; subst. eapply Hu; eauto.
    + right. eexists; split; [eauto|constructor; auto].
  - simpl in Hwf. destruct Hwf as [Hne Hwf]. simpl.
    revert h0 Hok. induction IH as [|x l Hx Hl IHl]; intros h0 Hok; [congruence|].
    destruct l as [|y l].
    + destruct Hwf as [Hwf _]. destruct (Hx Hwf h0 Hok) as [(h & n & Hn & Hb & Hu)|(e & He & Hu)].
      * left. do 2 eexists. split; [eauto|]. split; auto. intros e H; inversion H; subst.
        destruct H1 as [->|[]]. eapply Hu; eauto.
      * right. eexists; split; [eauto|]. econstructor; [simpl; eauto|auto].
    + destruct Hwf as [Hwfx Hwfl]. specialize (IHl ltac:(congruence) Hwfl h0 Hok).
      destruct IHl as [(h1 & r & Hr & (Hok1 & Ha1 & Hw1 & Hm1) & Hu1)|(e & He & Hu)].
      * rewrite Hr; simpl. destruct (Hx Hwfx h1 Hok1) as [(h2 & n & Hn & (Hok2 & Ha2 & Hw2 & Hm2) & Hu2)|(e & He & Hu)].
        -- left. rewrite Hn; simpl. do 2 eexists. split; [reflexivity|].
           assert (Hsame : forall p, In p (nfa_nodes r) -> nth_error h2 p = nth_error h1 p).
           { intros p Hp. apply (wf_range _ _ _ Hw1) in Hp. apply Ha2. lia. }
           assert (Hr2 : wfn (length h0) h2 r) by (eapply wfn_agree; eauto; apply Ha2).
           destruct Ha1 as [Hal1 Hag1].
           destruct (join_ok (length h0) h2 r n (sem (HConcat (y :: l))) (sem x) Hok2 Hr2 (wfn_weaken _ _ _ _ Hw2 Hal1)) as (Hok3 & Ha3 & Hw3 & Hm3).
           ++ intros p Hp Hp'. apply (wf_range _ _ _ Hw2) in Hp. apply (wf_range _ _ _ Hw1) in Hp'. lia.
           ++ intros a b w. rewrite <- Hm1. symmetry. eapply mat_agree; eauto.
           ++ exact Hm2.
           ++ split.
              ** split; auto. split; [|split; auto].
                 eapply (agree_trans (length h0) (length h0)); [split; eauto| |lia].
                 eapply (agree_trans (length h0) (length h0)); [|exact Ha3|lia]. split; [apply Ha2|]. intros p Hp. apply Ha2. lia.
              ** intros e H. inversion H; subst. destruct H1 as [->|Hin]; [eapply Hu2; eauto|].
                 eapply Hu1. econstructor; eauto.
        -- right. rewrite He; simpl. eexists; split; [reflexivity|]. econstructor; [left; reflexivity|auto].
      * right. rewrite He; simpl. eexists; split; [reflexivity|].
        inversion Hu; subst. econstructor; [right; eauto|auto].
  - simpl in Hwf. unfold nfa_post. simpl.
    destruct (alt_start h0 Hok) as [Hal Hag].
    set (b := length h0) in *. set (e := S b) in *.
    set (h1 := h0 ++ [nnode_default; nnode_default]) in *.
    set (go := fix go l h nodes := match l with [] => NOk (h, nodes) | x :: l' => ndo (h1, n) <- nfa_of x h; go l' (add_eps (add_eps h1 b (nfa_begin n)) (nfa_end n) e) (nodes ++ nfa_nodes n) end).
    assert (Hgo : forall l, Forall (fun k => wf_hir k -> forall h0, okh h0 -> nfa_post k h0 (nfa_of k h0)) l ->
       (fix go l := match l with [] => True | x :: l' => wf_hir x /\ go l' end) l ->
       forall h nodes L, alting b h b e nodes L ->
       (exists h' nodes', go l h nodes = NOk (h', nodes') /\ agree b h h' /\
          alting b h' b e nodes' (l_or L ((fix go l := match l with [] => l_none | x :: l' => l_or (sem x B E) (go l') end) l)) /\
          (forall x er, In x l -> ~ uses x er)) \/
       (exists er x, go l h nodes = NErr er /\ In x l /\ uses x er)).
    { clear. induction 1 as [|x l Hx Hl IHl]; intros Hwf h nodes L Hal.
      - left. exists h, nodes. simpl. split; auto. split; [apply agree_refl|]. split; [|tauto].
        destruct Hal. split; auto. intros w. unfold l_or, l_none. rewrite al_be0. tauto.
      - destruct Hwf as [Hwfx Hwfl]. simpl.
        destruct (Hx Hwfx h (al_ok _ _ _ _ _ _ Hal)) as [(h1 & n & Hn & Hb & Hu)|(er & He & Hu)].
        + rewrite Hn; simpl. destruct (alting_step _ _ _ _ _ _ _ _ _ Hal Hb) as [Hal' Ha'].
          destruct (IHl Hwfl _ _ _ Hal') as [(h' & nodes' & Hgo & Ha'' & Hal'' & Hu')|(er & y & Hgo & Hin & Hu')].
          * left. exists h', nodes'. split; [exact Hgo|]. split; [eapply agree_trans; eauto|]. split.
            -- destruct Hal''. split; auto. intros w. rewrite al_be0. unfold l_or. tauto.
            -- intros y er [->|Hin]; auto.
          * right. exists er, y. auto.
        + right. rewrite He; simpl. exists er, x. auto. }
    destruct (Hgo hs IH Hwf h1 [b; e] l_none Hal) as [(h' & nodes' & Hg & Ha' & Hal' & Hu)|(er & x & Hg & Hin & Hu)].
    + left. fold go. rewrite Hg; simpl. do 2 eexists. split; [reflexivity|]. split.
      * destruct Hal'. split; auto. split; [eapply agree_trans; eauto|]. split; [split; auto|].
        intros x y w. unfold mat_of. destruct x, y; simpl.
        -- rewrite al_bb0. unfold l_eps. tauto.
        -- rewrite al_be0. unfold l_or, l_none. tauto.
        -- unfold l_none. split; [|tauto]. intros H. apply noout_path in H; auto. destruct H; congruence.
        -- unfold l_eps. split; [intros H; apply noout_path in H; tauto|]. intros ->; constructor.
      * intros er H. inversion H; subst. eapply Hu; eauto.
    + right. fold go. rewrite Hg; simpl. eexists; split; [reflexivity|econstructor; eauto].
Qed.
