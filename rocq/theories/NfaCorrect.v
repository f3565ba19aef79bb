(** [nfa_of] computes [sem]: the repetition operators, concatenation and alternation. *)
From Verif Require Import Lib Hir NfaPath NfaSem NfaModel NfaProofs.

Notation mat_eq M1 M2 := (forall x y w, M1 x y w <-> M2 x y w).

Lemma m_add_mono (M1 M2 : mat) u v x : (forall x y w, M1 x y w -> M2 x y w) -> forall y w, m_add M1 u v x y w -> m_add M2 u v x y w.
Proof. intros H y w. induction 1; [apply ma_base; auto|apply ma_step; auto]. Qed.
Lemma m_add_ext M1 M2 u v : mat_eq M1 M2 -> mat_eq (m_add M1 u v) (m_add M2 u v).
Proof. intros H x y w; split; apply m_add_mono; firstorder. Qed.
Lemma rep_mat_ext k M1 M2 : mat_eq M1 M2 -> mat_eq (rep_mat k M1) (rep_mat k M2).
Proof.
  intros H.
  assert (Hpow : forall n w, l_pow (M1 B E) n w <-> l_pow (M2 B E) n w) by (intros n; apply l_pow_ext; intros; apply H).
  assert (Hst : forall x y, forall w, m_add M1 E B x y w <-> m_add M2 E B x y w) by (intros; apply m_add_ext; auto).
  assert (Hbd : forall n m, mat_eq (m_bounded n m M1) (m_bounded n m M2)).
  { intros n m x y w. destruct x, y; simpl; try apply H; try tauto. unfold l_or. rewrite Hpow.
    rewrite (l_cat_ext (l_between (M1 B E) n m) (l_between (M2 B E) n m) (M1 E E) (M2 E E)); [tauto| |apply H].
    intros w'. unfold l_between. split; intros (i & ? & ? & ?); exists i; repeat split; auto; apply Hpow; auto. }
  assert (Hex : forall n, mat_eq (m_exactly n M1) (m_exactly n M2)).
  { intros n x y w. destruct x, y; simpl; try apply H; try tauto. apply Hpow. }
  destruct k as [| | |n|n|n m]; simpl.
  - apply m_add_ext; auto.
  - intros x y w. unfold m_star. apply Hst.
  - apply m_add_ext; auto.
  - destruct n as [|[|n]]; [intros x y w; tauto|exact H|apply Hex].
  - destruct n as [|n]; [intros x y w; unfold m_star; apply Hst|].
    intros x y w. destruct x, y; unfold m_at_least; try apply H; try tauto; try apply Hst.
    apply l_cat_ext; auto.
  - destruct n as [|[|n]], m as [|[|m]]; auto;
      try (match goal with |- context [if ?c then _ else _] => destruct c; auto end);
      try (intros x y w; tauto); try (apply m_add_ext; auto).
Qed.

Lemma m_add_heap lo h i u v : wfn lo h i ->
  mat_eq (mat_of (add_eps h (pt i u) (pt i v)) i) (m_add (mat_of h i) u v).
Proof.
  intros Hw x y w. unfold mat_of at 1.
  rewrite path_heap_add_eps by (apply (wf_range _ _ _ Hw); eapply wf_pt; eauto).
  rewrite path_radd. split.
  - intros H. remember (pt i y) as z eqn:Ez. revert y Ez.
    induction H as [w z H|w1 w2 z H IH H2]; intros y ->.
    + apply ma_base. exact H.
    + apply ma_step; [apply IH; auto|exact H2].
  - induction 1 as [w y H|w1 w2 y H IH H2].
    + apply ap_base. exact H.
    + eapply ap_step; eauto.
Qed.

Lemma wfn_add_eps lo h i u v : wfn lo h i -> wfn lo (add_eps h (pt i u) (pt i v)) i.
Proof.
  intros Hw. assert (Hr : pt i u < length h) by (apply (wf_range _ _ _ Hw); eapply wf_pt; eauto).
  destruct (Hw) as [H1 H2 H3 H4 H5]. split; auto.
  - intros p Hp. rewrite add_eps_length. auto.
  - intros x l y Hx Hr'. apply hedge_add_eps in Hr' as [Hr'|(-> & -> & ->)]; auto; [eapply H3; eauto|].
    eapply wf_pt; eauto.
Qed.

Definition built (lo : nat) (h0 h : heap) (n : nfa) (M : mat) : Prop :=
  okh h /\ agree lo h0 h /\ wfn lo h n /\ mat_eq (mat_of h n) M.

Lemma wfn_lo lo h i : wfn lo h i -> lo <= nfa_begin i < length h /\ lo <= nfa_end i < length h.
Proof. intros [_ H _ Hb He]. split; auto. Qed.

Lemma built_add lo h0 h i M u v : built lo h0 h i M -> built lo h0 (add_eps h (pt i u) (pt i v)) i (m_add M u v).
Proof.
  intros (Hok & Ha & Hw & Hm). split; [apply okh_add_eps; auto|]. split.
  - eapply (agree_trans lo lo); [exact Ha|apply agree_add_eps|]; [|lia]. apply (wf_range _ _ _ Hw). eapply wf_pt; eauto.
  - split; [apply wfn_add_eps; auto|]. intros x y w. rewrite (m_add_heap _ _ _ _ _ Hw). apply m_add_ext. auto.
Qed.

Lemma built_star lo h0 h i M : built lo h0 h i M ->
  built lo h0 (fst (mk_star h i)) (snd (mk_star h i)) (m_star M).
Proof.
  intros Hb. apply built_add with (u := E) (v := B) in Hb. destruct Hb as (Hok & Ha & Hw & Hm).
  unfold mk_star; simpl. split; auto. split; auto. split.
  - destruct Hw as [H1 H2 H3 H4 H5]. split; auto.
  - intros x y w. unfold m_star. rewrite <- (Hm B B). unfold mat_of. destruct x, y; simpl; tauto.
Qed.

Lemma built_zero lo h0 h : lo <= length h -> okh h -> agree lo h0 h ->
  built lo h0 (fst (mk_zero h)) (snd (mk_zero h)) (fun _ _ => l_eps).
Proof.
  intros Hlo Hok Ha. unfold mk_zero, alloc; simpl. split; [|split; [|split]].
  - apply Forall_app; split; auto. constructor; [|constructor]. intros r s [].
  - eapply (agree_trans lo lo); [exact Ha|apply agree_app; eauto|]. lia.
  - split; simpl; auto.
    + repeat constructor; simpl; tauto.
    + intros p [<-|[]]. rewrite app_length; simpl; lia.
    + intros x l y [<-|[]] (n & Hn & Hr). rewrite nth_error_app2, Nat.sub_diag in Hn by lia. inversion Hn; subst.
      destruct l; simpl in Hr; [|tauto]. destruct Hr as (? & ? & [] & _).
  - intros x y w. unfold mat_of, l_eps.
    assert (pt {| nfa_nodes := [length h]; nfa_begin := length h; nfa_end := length h |} x = length h) as -> by (destruct x; auto).
    assert (pt {| nfa_nodes := [length h]; nfa_begin := length h; nfa_end := length h |} y = length h) as -> by (destruct y; auto).
    assert (Hno : forall l q, ~ hedge (h ++ [nnode_default]) (length h) l q).
    { intros l q (n & Hn & Hr). rewrite nth_error_app2, Nat.sub_diag in Hn by lia. inversion Hn; subst.
      destruct l; simpl in Hr; [|tauto]. destruct Hr as (? & ? & [] & _). }
    split.
    + intros H. inversion H; subst; auto; exfalso; eapply Hno; eauto.
    + intros ->. constructor.
Qed.

(** Closing the chain: [e -> begin inner] and optionally [e -> end inner]. *)
Lemma link_ok (skip : bool) sk lo h i M b nodes e X Y :
  chained sk lo h i M b nodes e X Y ->
  let h1 := add_eps h e (nfa_begin i) in
  let h2 := if skip then add_eps h1 e (nfa_end i) else h1 in
  built lo h h2 (mk_nfa (nodes ++ nfa_nodes i) b (nfa_end i))
    (fun x y => match x, y with
       | B, E => fun w => Y w \/ l_cat X (M B E) w \/ (skip = true /\ l_cat X (M E E) w)
       | B, B => M B B | E, E => M E E | E, B => l_none end).
Proof.
  intros [Hok Hin Hm Hnd Hrg Hdj Hcl Hpc Hb He Hbe Hbf Hbb]. intros h1.
  assert (Hel : lo <= e < length h) by (apply Hrg in He; lia).
  assert (Hed1 := hedge_add_eps h e (nfa_begin i) ltac:(lia)). fold h1 in Hed1.
  assert (Hp1 : forall x w y, path (hedge h1) x w y <-> path (radd (hedge h) e (nfa_begin i)) x w y).
  { intros. apply path_heap_add_eps. lia. }
  set (F := fun p => In p (nfa_nodes i)). set (PC := fun p => ~ In p (nfa_nodes i)).
  assert (HPCF : forall p, PC p -> F p -> False) by (unfold PC, F; auto).
  assert (HFe : PC e) by (unfold PC; eauto).
  assert (HF : closed (hedge h) F) by apply (wf_closed _ _ _ Hin).
  assert (Hbi : F (nfa_begin i)) by apply (wf_begin _ _ _ Hin).
  assert (Hei : F (nfa_end i)) by apply (wf_end _ _ _ Hin).
  assert (HFb : ~ F b) by (unfold F; eauto).
  pose proof (cat_once (hedge h) PC F e (nfa_begin i) HF HPCF HFe Hbi) as Conce.
  pose proof (cat_out (hedge h) PC F e (nfa_begin i) HF HPCF HFe Hbi) as Cout.
  pose proof (cat_from (hedge h) PC F e (nfa_begin i) HF HPCF HFe Hbi) as Cfrom.
  assert (HF1 : closed (hedge h1) F).
  { intros x l y Hx Hr. apply Hed1 in Hr as [Hr|(-> & -> & ->)]; eauto. }
  assert (HA1 : closed (hedge h1) (fun p => In p (nodes ++ nfa_nodes i))).
  { intros x l y Hx Hr. rewrite in_app_iff in *. apply Hed1 in Hr as [Hr|(-> & -> & ->)]; [eapply Hcl; eauto|auto]. }
  assert (HbM : forall w, path (hedge h) (nfa_begin i) w (nfa_end i) <-> M B E w) by (intros w; apply (Hm B E)).
  assert (HeM : forall w, path (hedge h) (nfa_end i) w (nfa_end i) <-> M E E w) by (intros w; apply (Hm E E)).
  assert (B1f : forall w, path (hedge h1) b w (nfa_end i) <-> Y w \/ l_cat X (M B E) w).
  { intros w. rewrite Hp1, Conce, Hbf. apply or_iff_compat_l. unfold l_cat.
    split; intros (w1 & w2 & -> & H1 & H2); exists w1, w2; (split; [reflexivity|]); (split; [apply Hbe; auto|apply HbM; auto]). }
  assert (B1u : forall w, path (hedge h1) b w e <-> X w).
  { intros w. rewrite Hp1, Cout; auto. }
  assert (B1b : forall w, path (hedge h1) b w b <-> M B B w).
  { intros w. rewrite Hp1, Cout; auto. }
  assert (B1ff : forall w, path (hedge h1) (nfa_end i) w (nfa_end i) <-> M E E w).
  { intros w. rewrite Hp1, Cfrom; auto. }
  assert (Hndp : NoDup (nodes ++ nfa_nodes i)) by (apply nodup_app; auto; apply (wf_nodup _ _ _ Hin)).
  assert (Hrgp : forall p, In p (nodes ++ nfa_nodes i) -> lo <= p < length h).
  { intros p Hp. apply in_app_iff in Hp as [Hp|Hp]; auto. apply (wf_range _ _ _ Hin); auto. }
  assert (Hnb : forall h', closed (hedge h') F -> forall w, ~ path (hedge h') (nfa_end i) w b).
  { intros h' Hc w H. apply HFb. eapply path_closed; eauto. }
  destruct skip; intros h2.
  - assert (Hed2 := hedge_add_eps h1 e (nfa_end i) ltac:(unfold h1; rewrite add_eps_length; lia)). fold h2 in Hed2.
    assert (Hp2 : forall x w y, path (hedge h2) x w y <-> path (radd (hedge h1) e (nfa_end i)) x w y).
    { intros. apply path_heap_add_eps. unfold h1; rewrite add_eps_length; lia. }
    pose proof (cat_once (hedge h1) PC F e (nfa_end i) HF1 HPCF HFe Hei) as Donce.
    pose proof (cat_out (hedge h1) PC F e (nfa_end i) HF1 HPCF HFe Hei) as Dout.
    pose proof (cat_from (hedge h1) PC F e (nfa_end i) HF1 HPCF HFe Hei) as Dfrom.
    assert (HF2 : closed (hedge h2) F).
    { intros x l y Hx Hr. apply Hed2 in Hr as [Hr|(-> & -> & ->)]; eauto. }
    split; [unfold h2, h1; do 2 apply okh_add_eps; auto|]. split.
    { eapply (agree_trans lo lo); [apply agree_add_eps with (k := lo) (p := e); lia|apply agree_add_eps; lia|lia]. }
    split.
    + split; simpl; auto.
      * intros p Hp. unfold h2, h1. rewrite !add_eps_length. auto.
      * intros x l y Hx Hr. apply Hed2 in Hr as [Hr|(-> & -> & ->)]; [eapply HA1; eauto|]. apply in_app_iff; auto.
      * apply in_app_iff; auto.
      * apply in_app_iff; auto.
    + intros x y w. unfold mat_of. destruct x, y; simpl.
      * rewrite Hp2, Dout; auto.
      * rewrite Hp2, Donce, B1f. unfold l_cat at 2. split.
        -- intros [[H|H]|(w1 & w2 & -> & H1 & H2)]; auto.
           right; right. split; auto. exists w1, w2. split; auto. split; [apply B1u|apply B1ff]; auto.
        -- intros [H|[H|(_ & w1 & w2 & -> & H1 & H2)]]; auto.
           right. exists w1, w2. split; auto. split; [apply B1u|apply B1ff]; auto.
      * unfold l_none. split; [|tauto]. apply Hnb; auto.
      * rewrite Hp2, Dfrom; auto.
  - split; [unfold h2, h1; apply okh_add_eps; auto|]. split; [apply agree_add_eps; lia|]. split.
    + split; simpl; auto.
      * intros p Hp. unfold h2, h1. rewrite !add_eps_length. auto.
      * apply in_app_iff; auto.
      * apply in_app_iff; auto.
    + intros x y w. unfold mat_of. destruct x, y; simpl; auto.
      * unfold h2. rewrite B1f. split; [tauto|]. intros [H|[H|[H _]]]; [tauto|tauto|discriminate].
      * unfold l_none. split; [|tauto]. apply Hnb; auto.
Qed.

Lemma exactly_ok n lo h i M : 2 <= n -> wfn lo h i -> okh h -> mat_eq (mat_of h i) M ->
  exists h' n', mk_exactly n h i = NOk (h', n') /\ built lo h h' n' (m_exactly n M).
Proof.
  intros Hn Hw Hok Hm. unfold mk_exactly.
  destruct (clone_start _ _ _ _ Hw Hok Hm) as (h1 & c & Hc & Ha1 & Hch). rewrite Hc; simpl.
  destruct (chain_ok (n - 2) _ _ _ _ _ _ _ _ _ _ Hch) as (h2 & nodes & e & Hk & Ha2 & Hch2). rewrite Hk; simpl.
  do 2 eexists. split; [reflexivity|].
  destruct (link_ok false _ _ _ _ _ _ _ _ _ _ Hch2) as (Hok3 & Ha3 & Hw3 & Hm3). cbv iota in *.
  split; auto. split; [eapply (agree_trans lo lo); [exact Ha1|eapply (agree_trans lo lo); [exact Ha2|exact Ha3|lia]|lia]|]. split; auto.
  intros x y w. rewrite Hm3. destruct x, y; simpl; try tauto. unfold l_none.
  assert (Hp : l_cat (l_cat (M B E) (l_pow (M B E) (n - 2))) (M B E) w <-> l_pow (M B E) n w).
  { replace n with (S (S (n - 2))) at 2 by lia. rewrite l_pow_S_r. simpl. tauto. }
  rewrite Hp. split; [|tauto]. intros [[]|[H|[H _]]]; [auto|discriminate].
Qed.

Lemma bounded_ok n m lo h i M : 1 <= n < m -> wfn lo h i -> okh h -> mat_eq (mat_of h i) M ->
  exists h' n', mk_bounded n m h i = NOk (h', n') /\ built lo h h' n' (m_bounded n m M).
Proof.
  intros Hn Hw Hok Hm. unfold mk_bounded.
  destruct (clone_start _ _ _ _ Hw Hok Hm) as (h1 & c & Hc & Ha1 & Hch). rewrite Hc; simpl.
  destruct (chain_ok (n - 1) _ _ _ _ _ _ _ _ _ _ Hch) as (h2 & nodes & e & Hk & Ha2 & Hch2). rewrite Hk; simpl.
  destruct (chain_skip_ok (m - n - 1) _ _ _ _ _ _ _ _ _ _ Hch2) as (sk & h3 & nodes' & e' & Hk' & Ha3 & Hch3). rewrite Hk'; simpl.
  do 2 eexists. split; [reflexivity|].
  destruct (link_ok true _ _ _ _ _ _ _ _ _ _ Hch3) as (Hok4 & Ha4 & Hw4 & Hm4). cbv iota in *.
  split; auto. split.
  { eapply (agree_trans lo lo); [exact Ha1|eapply (agree_trans lo lo); [exact Ha2|eapply (agree_trans lo lo); [exact Ha3|exact Ha4|lia]|lia]|lia]. }
  split; auto.
  intros x y w. rewrite Hm4. destruct x, y; simpl; try tauto.
  set (A := M B E). set (Z := M E E).
  assert (HX : forall w, l_cat A (l_pow A (n - 1)) w <-> l_pow A n w).
  { intros w'. replace n with (S (n - 1)) at 2 by lia. simpl. tauto. }
  assert (HXj : forall j w, l_cat (l_cat A (l_pow A (n - 1))) (l_pow A j) w <-> l_pow A (n + j) w).
  { intros j w'. rewrite l_pow_add. apply l_cat_ext; auto. tauto. }
  assert (Hlast : l_cat (l_cat (l_cat A (l_pow A (n - 1))) (l_pow A (m - n - 1))) A w <-> l_pow A m w).
  { rewrite (l_cat_ext _ _ A A (HXj (m - n - 1))) by tauto. rewrite <- l_pow_S_r. replace (S (n + (m - n - 1))) with m by lia. tauto. }
  rewrite Hlast. unfold l_or, l_none, skips, l_between. split.
  - intros [[[]|(j & Hj & H)]|[H|[_ H]]]; [|right; auto|].
    + left. destruct H as (u & v & -> & Hu & Hv). exists u, v. split; auto. split; auto.
      exists (n + j). repeat split; [lia|lia|]. apply HXj; auto.
    + left. destruct H as (u & v & -> & Hu & Hv). exists u, v. split; auto. split; auto.
      exists (n + (m - n - 1)). repeat split; [lia|lia|]. apply HXj; auto.
  - intros [H|H]; [|auto]. destruct H as (u & v & -> & (j & Hj1 & Hj2 & Hu) & Hv).
    assert (j = n + (m - n - 1) \/ j < n + (m - n - 1)) as [Hj|Hj] by lia.
    + right; right. split; auto. exists u, v. split; auto. split; auto. apply HXj. rewrite <- Hj. auto.
    + left; right. exists (j - n). split; [lia|]. exists u, v. split; auto. split; auto. apply HXj.
      replace (n + (j - n)) with j by lia. auto.
Qed.

Lemma bounded0_ok m lo h i M : 2 <= m -> wfn lo h i -> okh h -> mat_eq (mat_of h i) M ->
  exists h' n', mk_bounded0 m h i = NOk (h', n') /\ built lo h h' n' (m_add (m_bounded 1 m M) B E).
Proof.
  intros Hn Hw Hok Hm.
  destruct (bounded_ok 1 m lo h i M ltac:(lia) Hw Hok Hm) as (h' & n' & He & Hb).
  unfold mk_bounded in He. unfold mk_bounded0.
  destruct (clone h i) as [[h1 c]| |] eqn:Hc; simpl in *; try discriminate.
  replace (m - 1 - 1) with (m - 2) in He by lia.
  destruct (chain_skip (m - 2) i h1 (nfa_nodes c) (nfa_end c)) as [[[h3 nodes'] e']| |] eqn:Hk; simpl in *; try discriminate.
  inversion He; subst; clear He. do 2 eexists. split; [reflexivity|].
  apply (built_add _ _ _ _ _ B E) in Hb. exact Hb.
Qed.

Lemma at_least_ok n lo h i M : 1 <= n -> wfn lo h i -> okh h -> mat_eq (mat_of h i) M ->
  exists h' n', mk_at_least n h i = NOk (h', n') /\ built lo h h' n' (m_at_least n M).
Proof.
  intros Hn Hw Hok Hm. unfold mk_at_least.
  destruct (clone_start _ _ _ _ Hw Hok Hm) as (h1 & c & Hc & Ha1 & Hch). rewrite Hc; simpl.
  destruct (chain_ok (n - 1) _ _ _ _ _ _ _ _ _ _ Hch) as (h2 & nodes & e & Hk & Ha2 & Hch2). rewrite Hk; simpl.
  do 2 eexists. split; [reflexivity|].
  destruct Hch2 as [Hok2 Hin Hm2 Hnd Hrg Hdj Hcl Hpc Hb He Hbe Hbf Hbb].
  specialize (Hpc eq_refl).
  assert (Hel : lo <= e < length h2) by (apply Hrg in He; lia).
  destruct (wfn_lo _ _ _ Hin) as [Hli1 Hli2].
  set (h3 := add_eps h2 e (nfa_begin i)). set (h4 := add_eps h3 (nfa_end i) (nfa_begin i)).
  assert (Hl3 : length h3 = length h2) by apply add_eps_length.
  (* paths in h4 are paths in (R + ie ib) + e ib *)
  set (R1 := radd (hedge h2) (nfa_end i) (nfa_begin i)).
  assert (Hed4 : forall x l y, hedge h4 x l y <-> radd R1 e (nfa_begin i) x l y).
  { intros x l y. unfold h4. rewrite hedge_add_eps by (rewrite Hl3; lia). unfold radd at 1. unfold h3.
    rewrite hedge_add_eps by lia. unfold R1, radd. tauto. }
  set (F := fun p => In p (nfa_nodes i)). set (P := fun p => In p nodes).
  assert (Hbi : F (nfa_begin i)) by apply (wf_begin _ _ _ Hin).
  assert (Hei : F (nfa_end i)) by apply (wf_end _ _ _ Hin).
  assert (HR1F : closed R1 F).
  { intros x l y Hx [Hr|(-> & -> & ->)]; auto. eapply (wf_closed _ _ _ Hin); eauto. }
  assert (HR1P : closed R1 P).
  { intros x l y Hx [Hr|(-> & -> & ->)]; [eapply Hpc; eauto|]. exfalso; eapply Hdj; eauto. }
  assert (HR1Pp : forall x w y, P x -> (path (hedge h2) x w y <-> path R1 x w y)).
  { apply path_frame; [exact Hpc|]. intros x l y Hx. unfold R1, radd. split; auto. intros [H|(-> & _)]; auto. exfalso; eapply Hdj; eauto. }
  assert (HM1 : forall x y w, path R1 (pt i x) w (pt i y) <-> m_add M E B x y w).
  { intros x y w. unfold R1. change (nfa_end i) with (pt i E). change (nfa_begin i) with (pt i B).
    rewrite <- path_heap_add_eps by (simpl; lia). rewrite (m_add_heap _ _ _ E B Hin x y w). apply m_add_ext. exact Hm2. }
  pose proof (cat_once R1 P F e (nfa_begin i) HR1F Hdj He Hbi) as Conce.
  pose proof (cat_out R1 P F e (nfa_begin i) HR1F Hdj He Hbi) as Cout.
  pose proof (cat_from R1 P F e (nfa_begin i) HR1F Hdj He Hbi) as Cfrom.
  assert (HPb : P (nfa_begin c)) by exact Hb.
  assert (HFnb : ~ F (nfa_begin c)) by (intros H; eapply Hdj; eauto).
  split; [unfold h4, h3; do 2 apply okh_add_eps; auto|]. split.
  { eapply (agree_trans lo lo); [exact Ha1|eapply (agree_trans lo lo); [exact Ha2| |lia]|lia].
    apply agree_trans with (k' := lo) (h2 := h3); [apply agree_add_eps; lia|apply agree_add_eps; lia|lia]. }
  split.
  - split; simpl; auto.
    + apply nodup_app; auto. apply (wf_nodup _ _ _ Hin).
    + intros p Hp. unfold h4. rewrite add_eps_length, Hl3. apply in_app_iff in Hp as [Hp|Hp]; auto.
      apply (wf_range _ _ _ Hin) in Hp; auto.
    + intros x l y Hx Hr. rewrite in_app_iff in *. apply Hed4 in Hr as [Hr|(-> & -> & ->)]; [|auto].
      destruct Hx as [Hx|Hx]; [left; eapply HR1P; eauto|right; eapply HR1F; eauto].
    + apply in_app_iff; auto.
    + apply in_app_iff; auto.
  - intros x y w. unfold mat_of. rewrite (path_ext _ _ Hed4). destruct x, y; simpl.
    + rewrite Cout by auto. rewrite <- HR1Pp by auto. apply Hbb.
    + rewrite Conce. split.
      * intros [H|(w1 & w2 & -> & H1 & H2)].
        -- exfalso. eapply (Hdj (nfa_begin i)); auto. apply (path_closed _ P _ _ _ HR1P HPb H).
        -- exists w1, w2. split; auto. split; [|apply (HM1 B B); auto].
           apply HR1Pp, Hbe in H1; auto. replace n with (S (n - 1)) by lia. exact H1.
      * intros (w1 & w2 & -> & H1 & H2). right. exists w1, w2. split; auto. split; [|apply (HM1 B B); auto].
        apply HR1Pp; auto. apply Hbe. replace n with (S (n - 1)) in H1 by lia. exact H1.
    + unfold l_none. split; [|tauto]. intros H. apply HFnb. apply Cfrom in H; auto. apply (path_closed R1 F _ _ _ HR1F Hbi H).
    + rewrite Cfrom by auto. apply (HM1 B B).
Qed.

Lemma mk_rep_ok k lo h i M : wf_rep k -> wfn lo h i -> okh h -> mat_eq (mat_of h i) M ->
  exists h' n', mk_rep k h i = NOk (h', n') /\ built lo h h' n' (rep_mat k M).
Proof.
  intros Hk Hw Hok Hm.
  assert (Hb : built lo h h i M) by (split; auto; split; auto; apply agree_refl).
  assert (Hlo : lo <= length h) by (destruct (wfn_lo _ _ _ Hw); lia).
  assert (Hz := built_zero lo h h Hlo Hok (agree_refl _ _)).
  assert (Hst := built_star _ _ _ _ _ Hb).
  assert (Hopt := built_add _ _ _ _ _ B E Hb).
  assert (Hpl := built_add _ _ _ _ _ E B Hb).
  destruct k as [| | |n|n|n m]; simpl in *.
  - do 2 eexists; split; [reflexivity|exact Hopt].
  - do 2 eexists; split; [reflexivity|exact Hst].
  - do 2 eexists; split; [reflexivity|exact Hpl].
  - destruct n as [|[|n]].
    + do 2 eexists; split; [reflexivity|exact Hz].
    + do 2 eexists; split; [reflexivity|exact Hb].
    + apply exactly_ok; auto; lia.
  - destruct n as [|n].
    + do 2 eexists; split; [reflexivity|exact Hst].
    + apply at_least_ok; auto; lia.
  - assert (Hgen : 1 <= n -> ~ (n = 1 /\ m = 1) -> exists h' n', (if Nat.eqb n m then mk_exactly n h i
                else if Nat.ltb n m then mk_bounded n m h i else NPanic) = NOk (h', n') /\
                built lo h h' n' (if Nat.eqb n m then m_exactly n M else m_bounded n m M)).
    { intros Hn Hn1. destruct (Nat.eqb_spec n m).
      - apply exactly_ok; auto; lia.
      - destruct (Nat.ltb_spec n m); [|lia]. apply bounded_ok; auto; lia. }
    destruct n as [|[|n]], m as [|[|m]]; try (apply Hgen; lia); try lia.
    + do 2 eexists; split; [reflexivity|exact Hz].
    + do 2 eexists; split; [reflexivity|exact Hopt].
    + apply bounded0_ok; auto; lia.
    + do 2 eexists; split; [reflexivity|exact Hb].
Qed.
