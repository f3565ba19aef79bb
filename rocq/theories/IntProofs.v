(** The integers of the build stay within `u32`. *)
From Verif Require Import Lib Hir NfaModel DfaModel DfaEdges MinModel TokModel TokTop IntModel.

Lemma add32_ok w a b : (a + b < u32_size)%N -> add32 w a b = Some (a + b)%N.
Proof. intros H. unfold add32. apply N.ltb_lt in H. rewrite H. reflexivity. Qed.
Lemma sub32_ok w a b : (b <= a)%N -> sub32 w a b = Some (a - b)%N.
Proof. intros H. unfold sub32. apply N.leb_le in H. rewrite H. reflexivity. Qed.
Lemma less_ok w a b : b <= a -> less w a b = Some (a - b).
Proof. intros H. unfold less. rewrite sub32_ok by lia. simpl. f_equal. lia. Qed.

(** *** the ranges on the edges of an NFA *)
Section Keys.
  Variable Q : N * N -> Prop.
  Definition node_keys (n : nnode) : Prop := Forall (fun kv => Q (fst kv)) (n_next n).
  Definition keys_ok (h : heap) : Prop := Forall node_keys h.

  Lemma rset_keys {V} r (v : V) m : Q r -> Forall (fun kv => Q (fst kv)) m -> Forall (fun kv => Q (fst kv)) (rset r v m).
  Proof.
    intros Hr. induction m as [|[r' v'] m IH]; intros Hm; cbn [rset]; [repeat constructor; auto|].
    inversion Hm; subst. destruct (N.compare _ _); repeat constructor; auto.
  Qed.
  Lemma keys_add_eps h p q : keys_ok h -> keys_ok (add_eps h p q).
  Proof.
    unfold keys_ok, add_eps. revert p. induction h as [|n h IH]; intros p Hh; destruct p; cbn [upd_nth]; auto; inversion Hh; subst; constructor; auto.
  Qed.
  Lemma nmapM_keys {A B} (f : A -> nres B) (RA : A -> Prop) (RB : B -> Prop) l l' :
    (forall a b, RA a -> f a = NOk b -> RB b) -> Forall RA l -> nmapM f l = NOk l' -> Forall RB l'.
  Proof.
    intros Hf. revert l'. induction l as [|a l IH]; intros l' Hl E; cbn [nmapM] in E; [inversion E; constructor|].
    inversion Hl; subst. destruct (f a) as [b| |] eqn:Ea; cbn [nbind] in E; try discriminate.
    destruct (nmapM f l) as [bs| |]; cbn [nbind] in E; try discriminate. inversion E; subst. constructor; eauto.
  Qed.
  Lemma keys_copy f n n' : node_keys n -> copy_node f n = NOk n' -> node_keys n'.
  Proof.
    unfold copy_node, node_keys. intros Hn E. destruct (nmapM _ (n_eps n)) as [e| |]; cbn [nbind] in E; try discriminate.
    destruct (nmapM _ (n_next n)) as [nx| |] eqn:En; cbn [nbind] in E; try discriminate. inversion E; subst. cbn [n_next].
    eapply nmapM_keys; [|exact Hn|exact En]. intros kv kv' Hk Ek. cbv beta in Ek.
    destruct (nmapM _ (snd kv)) as [v| |]; cbn [nbind] in Ek; try discriminate. inversion Ek; subst. exact Hk.
  Qed.
  Lemma keys_olds h l olds : keys_ok h -> nmapM (fun p => n_of_opt (nth_error h p)) l = NOk olds -> keys_ok olds.
  Proof.
    intros Hh E. eapply (nmapM_keys _ (fun _ => True)); [|apply Forall_forall; auto|exact E].
    intros p n _ En. cbv beta in En. destruct (nth_error h p) as [x|] eqn:Ex; cbn [n_of_opt] in En; inversion En; subst.
    unfold keys_ok in Hh. rewrite Forall_forall in Hh. eapply Hh, nth_error_In; eauto.
  Qed.
  Lemma keys_clone h n h' n' : keys_ok h -> clone h n = NOk (h', n') -> keys_ok h'.
  Proof.
    unfold clone. intros Hh E. destruct (nmapM _ (nfa_nodes n)) as [olds| |] eqn:Eo; cbn [nbind] in E; try discriminate.
    destruct (nmapM (copy_node _) olds) as [news| |] eqn:En; cbn [nbind] in E; try discriminate.
    destruct (n_of_opt _) as [b| |]; cbn [nbind] in E; try discriminate.
    destruct (n_of_opt _) as [e| |]; cbn [nbind] in E; try discriminate. inversion E; subst.
    apply Forall_app. split; auto. eapply nmapM_keys; [|eapply keys_olds; eauto|exact En]. intros x y Hx. apply keys_copy; auto.
  Qed.
  Lemma keys_chain k : forall i h nodes e h' nodes' e', keys_ok h -> chain k i h nodes e = NOk (h', nodes', e') -> keys_ok h'.
  Proof.
    induction k as [|k IH]; intros i h nodes e h' nodes' e' Hh E; cbn [chain] in E; [inversion E; subst; auto|].
    destruct (clone h i) as [[h1 c]| |] eqn:Ec; cbn [nbind] in E; try discriminate.
    eapply IH; [|exact E]. apply keys_add_eps. eapply keys_clone; eauto.
  Qed.
  Lemma keys_chain_skip k : forall i h nodes e h' nodes' e', keys_ok h -> chain_skip k i h nodes e = NOk (h', nodes', e') -> keys_ok h'.
  Proof.
    induction k as [|k IH]; intros i h nodes e h' nodes' e' Hh E; cbn [chain_skip] in E; [inversion E; subst; auto|].
    destruct (clone h i) as [[h1 c]| |] eqn:Ec; cbn [nbind] in E; try discriminate.
    eapply IH; [|exact E]. do 2 apply keys_add_eps. eapply keys_clone; eauto.
  Qed.
  Ltac step E :=
    match type of E with
    | context [clone ?h ?i] => let Ec := fresh "Ec" in destruct (clone h i) as [[? ?]| |] eqn:Ec; cbn [nbind] in E; [apply keys_clone in Ec; [|assumption]|discriminate|discriminate]
    | context [chain ?k ?i ?h ?n ?e] => let Ec := fresh "Ec" in destruct (chain k i h n e) as [[[? ?] ?]| |] eqn:Ec; cbn [nbind] in E; [apply keys_chain in Ec; [|assumption]|discriminate|discriminate]
    | context [chain_skip ?k ?i ?h ?n ?e] => let Ec := fresh "Ec" in destruct (chain_skip k i h n e) as [[[? ?] ?]| |] eqn:Ec; cbn [nbind] in E; [apply keys_chain_skip in Ec; [|assumption]|discriminate|discriminate]
    end.
  Lemma keys_exactly n h i h' i' : keys_ok h -> mk_exactly n h i = NOk (h', i') -> keys_ok h'.
  Proof. unfold mk_exactly. intros Hh E. step E. step E. inversion E; subst. apply keys_add_eps; auto. Qed.
  Lemma keys_zero h h' i' : keys_ok h -> mk_zero h = (h', i') -> keys_ok h'.
  Proof. unfold mk_zero, alloc. intros Hh E. inversion E; subst. apply Forall_app. split; auto. repeat constructor. Qed.
  Lemma keys_rep k h i h' i' : keys_ok h -> mk_rep k h i = NOk (h', i') -> keys_ok h'.
  Proof.
    intros Hh E.
    assert (Hst : forall h' i', mk_star h i = (h', i') -> keys_ok h') by (unfold mk_star; intros; inversion H; subst; apply keys_add_eps; auto).
    assert (Hop : forall h' i', mk_opt h i = (h', i') -> keys_ok h') by (unfold mk_opt; intros; inversion H; subst; apply keys_add_eps; auto).
    assert (Hal : forall n h' i', mk_at_least n h i = NOk (h', i') -> keys_ok h').
    { intros n h2 i2 E2. unfold mk_at_least in E2. step E2. step E2. inversion E2; subst. do 2 apply keys_add_eps; auto. }
    assert (Hb0 : forall n h' i', mk_bounded0 n h i = NOk (h', i') -> keys_ok h').
    { intros n h2 i2 E2. unfold mk_bounded0 in E2. step E2. step E2. inversion E2; subst. do 3 apply keys_add_eps; auto. }
    assert (Hb : forall n m h' i', mk_bounded n m h i = NOk (h', i') -> keys_ok h').
    { intros n m h2 i2 E2. unfold mk_bounded in E2. step E2. step E2. step E2. inversion E2; subst. do 2 apply keys_add_eps; auto. }
    destruct k as [| | |n|n|n m]; cbn [mk_rep] in E.
    - apply (Hop h' i'); congruence.
    - apply (Hst h' i'); congruence.
    - unfold mk_plus in E. inversion E; subst. apply keys_add_eps; auto.
    - destruct n as [|[|n]]; [apply (keys_zero h h' i'); [exact Hh|congruence]|inversion E; subst; auto|eapply keys_exactly; eauto].
    - destruct n as [|n]; [apply (Hst h' i'); congruence|eapply Hal; eauto].
    - destruct n as [|[|n]]; destruct m as [|[|m]];
        try (apply (keys_zero h h' i'); [exact Hh|congruence]; fail); try (apply (Hop h' i'); congruence; fail); try (inversion E; subst; auto; fail);
        try (eapply Hb0; eauto; fail);
        (destruct (Nat.eqb _ _); [eapply keys_exactly; eauto|]; destruct (Nat.ltb _ _); [eapply Hb; eauto|discriminate]).
  Qed.
End Keys.

(** a range of characters *)
Definition unicode (r : N * N) : Prop := (fst r <= max_char)%N /\ (snd r <= max_char + 1)%N.

Lemma exactly32_eq w n h i : 2 <= n -> exactly32 w n h i = mk_exactly n h i.
Proof. intros Hn. unfold exactly32, mk_exactly. destruct (clone h i) as [[h1 c]| |]; cbn [nbind]; auto. rewrite less_ok by auto. reflexivity. Qed.
Lemma rep32_eq w k h i : wf_rep k -> rep32 w k h i = mk_rep k h i.
Proof.
  assert (Hal : forall n, 1 <= n -> at_least32 w n h i = mk_at_least n h i).
  { intros n Hn. unfold at_least32, mk_at_least. destruct (clone h i) as [[h1 c]| |]; cbn [nbind]; auto. rewrite less_ok by auto. reflexivity. }
  assert (Hb0 : forall n, 2 <= n -> up_to32 w n h i = mk_bounded0 n h i).
  { intros n Hn. unfold up_to32, mk_bounded0. destruct (clone h i) as [[h1 c]| |]; cbn [nbind]; auto. rewrite less_ok by auto. reflexivity. }
  assert (Hb : forall n m, 1 <= n < m -> bounded32 w n m h i = mk_bounded n m h i).
  { intros n m Hn. unfold bounded32, mk_bounded. destruct (clone h i) as [[h1 c]| |]; cbn [nbind]; auto. rewrite less_ok by lia. cbn [n_of_opt nbind].
    destruct (chain (n - 1) i h1 (nfa_nodes c) (nfa_end c)) as [[[h2 nodes] e]| |]; cbn [nbind]; auto. rewrite less_ok by lia. cbn [n_of_opt nbind].
    rewrite less_ok by lia. reflexivity. }
  destruct k as [| | |n|n|n m]; cbn [wf_rep rep32 mk_rep]; intros Hw; auto.
  - destruct n as [|[|n]]; auto. apply exactly32_eq. lia.
  - destruct n as [|n]; auto. apply Hal. lia.
  - destruct n as [|[|n]]; destruct m as [|[|m]]; auto; try (exfalso; lia); try (apply Hb0; lia).
    + destruct (Nat.eqb_spec 1 (S (S m))); [lia|]. destruct (Nat.ltb_spec 1 (S (S m))); [apply Hb; lia|reflexivity].
    + destruct (Nat.eqb_spec (S (S n)) (S (S m))) as [En|En]; [apply exactly32_eq; lia|]. destruct (Nat.ltb_spec (S (S n)) (S (S m))); [apply Hb; lia|reflexivity].
Qed.

Lemma class32_eq w rs e : Forall (fun r => (fst r <= snd r)%N /\ (snd r <= max_char)%N) rs -> forall m,
  class32 w rs e m = NOk (fold_left (fun m r => rset (fst r, (snd r + 1)%N) [e] m) rs m).
Proof.
  induction 1 as [|r rs [H1 H2] _ IH]; intros m; cbn [class32 fold_left]; auto.
  rewrite add32_ok by (unfold max_char, u32_size in *; lia). cbn [n_of_opt nbind]. apply IH.
Qed.
Lemma class_keys rs (e : nat) : Forall (fun r => (fst r <= snd r)%N /\ (snd r <= max_char)%N) rs -> forall m, Forall (fun kv : (N * N) * list nat => unicode (fst kv)) m ->
  Forall (fun kv => unicode (fst kv)) (fold_left (fun m r => rset (fst r, (snd r + 1)%N) [e] m) rs m).
Proof.
  induction 1 as [|r rs [H1 H2] _ IH]; intros m Hm; cbn [fold_left]; auto. apply IH. apply rset_keys; auto. unfold unicode. cbn [fst snd]. lia.
Qed.

(** one pattern *)
Lemma nfa32_ok w k : wf_hir k -> forall h, keys_ok unicode h ->
  nfa32 w k h = nfa_of k h /\ forall h' n, nfa_of k h = NOk (h', n) -> keys_ok unicode h'.
Proof.
  induction k as [|c|b|rs|rs| | |k g x IH|x IH|hs IH|hs IH] using hir_ind'; intros Hw h Hh; cbn [nfa32 nfa_of]; cbv zeta.
  - rewrite add32_ok by (vm_compute; reflexivity). split; [reflexivity|]. intros h' n E. inversion E; subst. apply Forall_app. split; auto.
    repeat constructor; cbn [fst snd]; unfold max_char; lia.
  - cbn [wf_hir] in Hw. rewrite add32_ok by (unfold max_char, u32_size in *; lia). split; [reflexivity|]. intros h' n E. inversion E; subst. apply Forall_app. split; auto.
    repeat constructor; cbn [fst snd]; lia.
  - split; [reflexivity|discriminate].
  - cbn [wf_hir] in Hw. destruct Hw as [Hw _]. rewrite class32_eq by auto. split; [reflexivity|]. intros h' n E. inversion E; subst. apply Forall_app. split; auto.
    constructor; [|repeat constructor]. unfold node_keys. cbn [n_next]. apply class_keys; auto.
  - split; [reflexivity|discriminate].
  - split; [reflexivity|discriminate].
  - split; [reflexivity|discriminate].
  - cbn [wf_hir] in Hw. destruct Hw as [Hk Hx]. destruct (IH Hx h Hh) as [A B]. rewrite A. destruct (nfa_of x h) as [[h1 i]| |]; cbn [nbind]; try (split; [reflexivity|discriminate]).
    rewrite rep32_eq by auto. split; auto. intros h' n E. eapply keys_rep; [|exact E]. eapply B; eauto.
  - cbn [wf_hir] in Hw. apply IH; auto.
  - cbn [wf_hir] in Hw. destruct Hw as [_ Hw]. revert h Hh Hw. induction IH as [|x l Hx Hl IHl]; intros h Hh Hw; [split; [reflexivity|discriminate]|].
    destruct Hw as [Wx Wl]. destruct l as [|y l]; [apply Hx; auto|].
    specialize (IHl h Hh Wl). destruct IHl as [A B]. rewrite A.
    match goal with |- context [nbind ?z _] => set (r := z) in * end. destruct r as [[h1 r0]| |]; cbn [nbind]; try (split; [reflexivity|discriminate]).
    specialize (B h1 r0 eq_refl). destruct (Hx Wx h1 B) as [C D]. rewrite C. destruct (nfa_of x h1) as [[h2 n]| |]; cbn [nbind]; try (split; [reflexivity|discriminate]).
    split; [reflexivity|]. intros h' n' E. inversion E; subst. apply keys_add_eps. eapply D; eauto.
  - cbn [wf_hir] in Hw.
    match goal with |- nbind (?f hs ?a ?nd) _ = nbind (?g hs _ _) _ /\ _ =>
      assert (G : forall h1 nodes, keys_ok unicode h1 -> f hs h1 nodes = g hs h1 nodes /\ forall h' nodes', g hs h1 nodes = NOk (h', nodes') -> keys_ok unicode h') end.
    { clear Hh. induction IH as [|x l Hx Hl IHl]; intros h1 nodes Hh; [split; [reflexivity|intros h' n E; inversion E; subst; auto]|].
      destruct Hw as [Wx Wl]. destruct (Hx Wx h1 Hh) as [C D]. rewrite C. destruct (nfa_of x h1) as [[h2 n]| |]; cbn [nbind]; try (split; [reflexivity|discriminate]).
      apply IHl; auto. do 2 apply keys_add_eps. eapply D; eauto. }
    destruct (G (h ++ [nnode_default; nnode_default]) [length h; S (length h)]) as [A B]; [apply Forall_app; split; auto; repeat constructor|]. rewrite A.
    match goal with |- nbind ?z _ = _ /\ _ => destruct z as [[h1 nodes]| |] end; cbn [nbind]; try (split; [reflexivity|discriminate]).
    split; [reflexivity|]. intros h' n E. inversion E; subst. eapply B; eauto.
Qed.

Lemma keys_embed Q h n base news b e : keys_ok Q h -> embed h n base = NOk (news, b, e) -> keys_ok Q news.
Proof.
  unfold embed. intros Hh E. destruct (n_of_opt _) as [e0| |]; cbn [nbind] in E; try discriminate.
  destruct (n_of_opt _) as [b0| |]; cbn [nbind] in E; try discriminate.
  destruct (nmapM _ (nfa_nodes n)) as [olds| |] eqn:Eo; cbn [nbind] in E; try discriminate.
  destruct (nmapM (copy_node _) olds) as [news0| |] eqn:En; cbn [nbind] in E; try discriminate. inversion E; subst.
  eapply nmapM_keys; [|eapply keys_olds; eauto|exact En]. intros x y Hx. apply keys_copy; auto.
Qed.
(** all patterns *)
Lemma tnfa32_ok w ps : Forall wf_hir ps -> tnfa32 w ps = tnfa_of ps /\ forall t, tnfa_of ps = NOk t -> keys_ok unicode (tn_nodes t).
Proof.
  intros Hw.
  assert (G : forall ps, Forall wf_hir ps -> forall nodes beps ends, keys_ok unicode nodes ->
    tnfa_loop32 w ps nodes beps ends = tnfa_loop ps nodes beps ends /\ forall nodes' beps' ends', tnfa_loop ps nodes beps ends = NOk (nodes', beps', ends') -> keys_ok unicode nodes').
  { clear. induction 1 as [|p ps Hp Hps IH]; intros nodes beps ends Hn; cbn [tnfa_loop32 tnfa_loop]; [split; [reflexivity|intros ? ? ? E; inversion E; subst; auto]|].
    destruct (nfa32_ok w p Hp []) as [A B]; [constructor|]. rewrite A. destruct (nfa_of p []) as [[h n]| |]; cbn [nbind]; try (split; [reflexivity|discriminate]).
    specialize (B h n eq_refl). destruct (embed h n (length nodes)) as [[[news b] e]| |] eqn:Ee; cbn [nbind]; try (split; [reflexivity|discriminate]).
    apply IH. apply Forall_app. split; auto. eapply keys_embed; eauto. }
  unfold tnfa32, tnfa_of. destruct (G ps Hw [] [] []) as [A B]; [constructor|]. rewrite A.
  destruct (tnfa_loop ps [] [] []) as [[[nodes beps] ends]| |]; cbn [nbind]; try (split; [reflexivity|discriminate]).
  split; [reflexivity|]. intros t E. inversion E; subst. cbn [tn_nodes]. apply Forall_app. split; [eapply B; eauto|repeat constructor].
Qed.

(** *** the subset construction *)
Definition starts_ok (m : bmap) : Prop := Forall (fun be => (fst be <= max_char)%N /\ Forall (fun es => (fst es <= max_char + 1)%N) (snd be)) m.

Lemma bupd_all {V} (R : N * V -> Prop) k (d : V) f m : (forall v, R (k, v) -> R (k, f v)) -> R (k, f d) -> Forall R m -> Forall R (bupd k d f m).
Proof.
  intros Hf Hd. induction m as [|[k' v'] m IH]; intros Hm; cbn [bupd]; [repeat constructor; auto|]. inversion Hm; subst.
  destruct (cmp k k') eqn:Ec; repeat constructor; auto. apply cmp_eq in Ec. subst. auto.
Qed.

Lemma add_edge_starts r s m : unicode r -> starts_ok m -> starts_ok (add_edge r s m).
Proof.
  intros [H1 H2] Hm. unfold add_edge. apply bupd_all; auto; cbn [fst snd].
  - intros em [_ He]. split; auto. apply bupd_all; auto.
  - split; auto. cbn [bupd]. repeat constructor. cbn [fst]. auto.
Qed.
Lemma foldM_all {A S} (R : S -> Prop) (f : S -> A -> res S) l : (forall s x s', In x l -> R s -> f s x = Ok s' -> R s') -> forall s s', R s -> foldM f l s = Ok s' -> R s'.
Proof.
  induction l as [|x l IH]; intros Hf s s' Hs E; cbn [foldM] in E; [inversion E; subst; auto|].
  destruct (f s x) as [s1| |] eqn:Ex; cbn [bind] in E; try discriminate. eapply IH; [|eapply Hf; [left; reflexivity|exact Hs|exact Ex]|exact E].
  intros s2 y s3 Hy. apply Hf. right. auto.
Qed.
Lemma collect_starts h cur m : keys_ok unicode h -> collect h cur = Ok m -> starts_ok m.
Proof.
  intros Hh E. unfold collect in E. eapply (foldM_all starts_ok); [| |exact E]; [|constructor].
  clear m E. intros m n m' _ Hm E. unfold collect_node in E. destruct (nth_error h n) as [nd|] eqn:En; cbn [of_opt bind] in E; try discriminate.
  eapply (foldM_all starts_ok); [|exact Hm|exact E]. clear m m' Hm E. intros m [r s] m' Hin Hm E. unfold collect_edge in E. cbn [fst snd] in E.
  destruct (mapM _ s) as [ss| |]; cbn [bind] in E; try discriminate. inversion E; subst. apply add_edge_starts; auto.
  unfold keys_ok in Hh. rewrite Forall_forall in Hh. specialize (Hh nd (nth_error_In _ _ En)). unfold node_keys in Hh. rewrite Forall_forall in Hh. apply (Hh (r, s) Hin).
Qed.
Lemma filter_Forall {A} (R : A -> Prop) f l : Forall R l -> Forall R (filter f l).
Proof. induction 1; cbn [filter]; auto. destruct (f x); auto. Qed.

Lemma align32_ok w rest : forall cur, starts_ok (cur :: rest) -> align32 w cur rest = Ok (align cur rest) /\ starts_ok (align cur rest).
Proof.
  induction rest as [|[upper nxt] rest IH]; intros cur Hm; cbn [align32 align]; [auto|].
  inversion Hm as [|? ? [C1 C2] Hr]; subst. inversion Hr as [|? ? [U1 U2] Hr']; subst. cbn [fst snd] in U1, U2.
  rewrite add32_ok by (unfold max_char, u32_size in *; lia). cbn [of_opt bind].
  assert (Ef : forall kv : N * list nat, N.leb (upper + 1) (fst kv) = N.ltb upper (fst kv)).
  { intros kv. destruct (N.leb_spec (upper + 1) (fst kv)), (N.ltb_spec upper (fst kv)); auto; lia. }
  rewrite (filter_ext _ _ Ef). rewrite (filter_ext (fun kv : N * list nat => negb (N.leb (upper + 1) (fst kv))) (fun kv => negb (N.ltb upper (fst kv)))) by (intros kv; rewrite Ef; reflexivity).
  assert (Hg : Forall (fun es : N * list nat => (fst es <= max_char + 1)%N) (filter (fun kv => N.ltb upper (fst kv)) (snd cur))) by (apply filter_Forall; auto).
  remember (filter (fun kv : N * list nat => N.ltb upper (fst kv)) (snd cur)) as greater eqn:Eg. destruct greater as [|g0 gs].
  - destruct (IH (upper, nxt)) as [A B]; [constructor; auto|]. rewrite A. cbn [bind]. split; auto. constructor; auto.
  - assert (Hn : Forall (fun es : N * list nat => (fst es <= max_char + 1)%N) (fold_left (fun m kv => bupd (fst kv) [] (fun old => ins_all (snd kv) old) m) (g0 :: gs) nxt)).
    { clear Eg IH. revert nxt U2 Hm Hr. induction (g0 :: gs) as [|g l IHl]; intros nxt U2 Hm Hr; cbn [fold_left]; auto. inversion Hg; subst.
      assert (Hx : Forall (fun es : N * list nat => (fst es <= max_char + 1)%N) (bupd (fst g) [] (fun old => ins_all (snd g) old) nxt)) by (apply bupd_all; auto).
      apply IHl; auto; repeat constructor; auto. }
    destruct (IH (upper, fold_left (fun m kv => bupd (fst kv) [] (fun old => ins_all (snd kv) old) m) (g0 :: gs) nxt)) as [A B]; [constructor; auto|].
    rewrite A. cbn [bind]. split; auto. constructor; auto. cbn [fst snd]. split; auto. apply bupd_all; cbn [fst]; auto; try lia. apply filter_Forall; auto.
Qed.
Lemma align_by_begin32_ok w m : starts_ok m -> align_by_begin32 w m = Ok (align_by_begin m) /\ starts_ok (align_by_begin m).
Proof. destruct m as [|x r]; intros Hm; [split; auto|]. cbn [align_by_begin32 align_by_begin]. apply align32_ok; auto. Qed.
Lemma split_ranges_end em : forall b, (b <= max_char + 1)%N -> Forall (fun es => (fst es <= max_char + 1)%N) em -> Forall (fun x => (snd (fst x) <= max_char + 1)%N) (fst (split_ranges b em)).
Proof.
  induction em as [|[e s] em IH]; intros b Hb He; cbn [split_ranges]; [constructor|]. inversion He; subst. cbn [fst] in *. specialize (IH e H1 H2).
  destruct (split_ranges e em) as [rs sum]. cbn [fst snd] in *. constructor; auto.
Qed.
Lemma split_by_end_end m : starts_ok m -> Forall (fun x => (snd (fst x) <= max_char + 1)%N) (split_by_end m).
Proof.
  unfold split_by_end. induction 1 as [|[b em] m [H1 H2] _ IH]; cbn [map concat]; [constructor|]. apply Forall_app. split; auto. apply split_ranges_end; auto. cbn [fst] in *. lia.
Qed.

Lemma dfa_step32_eq w h st : keys_ok unicode h -> dfa_step32 w h st = dfa_step h st.
Proof.
  intros Hh. unfold dfa_step32, dfa_step. destruct (ds_q st) as [|cur q]; auto. destruct (ref_of (ds_ref st) cur) as [c|]; auto. destruct (mem c (ds_done st)); auto.
  destruct (collect h cur) as [m| |] eqn:Em; cbn [bind]; auto. destruct (align_by_begin32_ok w m (collect_starts _ _ _ Hh Em)) as [A _]. rewrite A. reflexivity.
Qed.
Lemma loop_ext {S A} (f g : S -> S + res A) n : (forall s, f s = g s) -> forall s, loop f n s = loop g n s.
Proof. intros H. induction n as [|n IH]; intros s; cbn [loop]; auto. rewrite H. destruct (g s); auto. Qed.
Lemma dfa32_eq w order fuel t : keys_ok unicode (tn_nodes t) -> dfa32 w order fuel t = dfa_of order fuel t.
Proof.
  intros Hh. unfold dfa32, dfa_of. destruct (eps_rec (tn_nodes t) (tn_begin t)) as [b| |]; cbn [bind]; auto.
  rewrite (loop_ext _ (dfa_step (tn_nodes t)) fuel (fun st => dfa_step32_eq w _ st Hh)). reflexivity.
Qed.

(** *** the ends of the ranges of the tables *)
Definition ends_fit (nodes : list dnode) : Prop := Forall (Forall (fun x : (N * N) * nat => (snd (fst x) <= max_char + 1)%N)) nodes.

Lemma upd_nth_all {A} (R : A -> Prop) i f (l : list A) : (forall x, R x -> R (f x)) -> Forall R l -> Forall R (upd_nth i f l).
Proof. intros Hf H. revert i. induction H; intros i; destruct i; cbn [upd_nth]; auto. Qed.
Lemma rset_end {V} r (v : V) m : (snd r <= max_char + 1)%N -> Forall (fun x => (snd (fst x) <= max_char + 1)%N) m -> Forall (fun x => (snd (fst x) <= max_char + 1)%N) (rset r v m).
Proof. apply (rset_keys (fun r => (snd r <= max_char + 1)%N)). Qed.
Lemma step_fit h st s1 : keys_ok unicode h -> ends_fit (ds_nodes st) -> dfa_step h st = inl s1 -> ends_fit (ds_nodes s1).
Proof.
  intros Hh Hs Es. unfold dfa_step in Es. destruct (ds_q st) as [|cur q]; [discriminate Es|]. destruct (ref_of (ds_ref st) cur) as [c|]; [|discriminate Es].
  destruct (mem c (ds_done st)); [inversion Es; subst; auto|]. destruct (collect h cur) as [m| |] eqn:Em; cbn [bind] in Es; [|discriminate Es|discriminate Es].
  match type of Es with context [foldM ?f ?l ?s] => destruct (foldM f l s) as [st2| |] eqn:Ef end; [|discriminate Es|discriminate Es]. inversion Es; subst s1. clear Es.
  assert (Hl : Forall (fun x => (snd (fst x) <= max_char + 1)%N) (split_by_end (align_by_begin m))) by (apply split_by_end_end; apply (align_by_begin32_ok true); eapply collect_starts; eauto).
  rewrite Forall_forall in Hl. eapply (foldM_all (fun st => ends_fit (ds_nodes st))); [| |exact Ef]; [|exact Hs].
  intros s [range next] s' Hin Hfit Ea. specialize (Hl _ Hin). cbn [fst] in Hl. unfold add_target in Ea.
  destruct (ref_of (ds_ref s) next) as [i|]; (match type of Ea with context [of_opt ?o] => destruct o as [c'|] end); cbn [of_opt bind] in Ea; inversion Ea; subst; cbn [ds_nodes]; unfold ends_fit;
    (apply upd_nth_all; [intros x Hx; apply rset_end; auto|]); [exact Hfit|]. apply Forall_app. split; [exact Hfit|repeat constructor].
Qed.
Lemma step_stop h st st' : dfa_step h st = inr (Ok st') -> st' = st.
Proof.
  intros Es. unfold dfa_step in Es. destruct (ds_q st) as [|cur q]; [congruence|]. destruct (ref_of (ds_ref st) cur) as [c|]; [|discriminate Es].
  destruct (mem c (ds_done st)); [discriminate Es|]. match type of Es with context [bind ?a ?b] => destruct (bind a b) end; discriminate Es.
Qed.
Lemma dfa_fit order fuel t d ws : keys_ok unicode (tn_nodes t) -> dfa_of order fuel t = Ok (d, ws) -> ends_fit (d_nodes d).
Proof.
  intros Hh E. unfold dfa_of in E. destruct (eps_rec (tn_nodes t) (tn_begin t)) as [b| |]; cbn [bind] in E; try discriminate E.
  assert (G : forall k st st', ends_fit (ds_nodes st) -> loop (dfa_step (tn_nodes t)) k st = Ok st' -> ends_fit (ds_nodes st')).
  { clear E. induction k as [|n IH]; intros st st' Hs E; cbn [loop] in E; [discriminate E|].
    destruct (dfa_step (tn_nodes t) st) as [s1|r] eqn:Es; [eapply IH; [|exact E]; eapply step_fit; eauto|]. subst r. apply step_stop in Es. subst. auto. }
  match type of E with context [loop ?f ?n ?s] => destruct (loop f n s) as [st| |] eqn:El end; cbn [bind] in E; try discriminate E. destruct (mark_all _ _) as [en ws']. inversion E; subst. cbn [d_nodes].
  eapply G; [|exact El]. repeat constructor.
Qed.
Definition cs_fit (st : cstate) : Prop := (forall e, cs_end st = Some e -> (e <= max_char + 1)%N) /\ Forall (fun x => (snd (fst x) <= max_char + 1)%N) (cs_out st).
Lemma flush_fit st g k : cs_fit st -> flush st g = Ok k -> Forall (fun x => (snd (fst x) <= max_char + 1)%N) k.
Proof.
  intros [H1 H2] E. unfold flush in E. destruct (cs_begin st); cbn [of_opt bind] in E; try discriminate. destruct (cs_end st) as [e|]; cbn [of_opt bind] in E; try discriminate.
  inversion E; subst. apply rset_end; auto.
Qed.
Lemma compress_fit g nd k : Forall (fun x => (snd (fst x) <= max_char + 1)%N) nd -> compress g nd = Ok k -> Forall (fun x => (snd (fst x) <= max_char + 1)%N) k.
Proof.
  intros Hn E. unfold compress in E. destruct (foldM _ nd _) as [st| |] eqn:Ef; cbn [bind] in E; try discriminate.
  assert (Hst : cs_fit st).
  { rewrite Forall_forall in Hn. eapply (foldM_all cs_fit); [| |exact Ef]; [|split; [discriminate|constructor]].
    intros s [range next] s' Hin Hs Es. specialize (Hn _ Hin). cbn [fst] in Hn. unfold compress_step in Es. destruct (nth_error g next) as [c|]; cbn [of_opt bind] in Es; try discriminate.
    destruct (cs_group s) as [p|] eqn:Eg.
    - destruct (negb (Nat.eqb p c) || _).
      + destruct (flush s p) as [out| |] eqn:Efl; cbn [bind] in Es; try discriminate. inversion Es; subst. split; cbn [cs_end cs_out]; [intros e H; inversion H; subst; auto|]. eapply flush_fit; eauto.
      + cbn [bind] in Es. inversion Es; subst. split; cbn [cs_end cs_out]; [intros e H; inversion H; subst; auto|apply Hs].
    - cbn [bind] in Es. inversion Es; subst. split; cbn [cs_end cs_out]; [intros e H; inversion H; subst; auto|apply Hs]. }
  destruct (cs_group st); [eapply flush_fit; eauto|]. inversion E; subst. apply Hst.
Qed.
Lemma mapM_all {A B} (RA : A -> Prop) (RB : B -> Prop) (f : A -> res B) l l' : (forall a b, RA a -> f a = Ok b -> RB b) -> Forall RA l -> mapM f l = Ok l' -> Forall RB l'.
Proof.
  intros Hf. revert l'. induction l as [|a l IH]; intros l' Hl E; cbn [mapM] in E; [inversion E; constructor|]. inversion Hl; subst.
  destruct (f a) as [b| |] eqn:Ea; cbn [bind] in E; try discriminate. destruct (mapM f l) as [bs| |]; cbn [bind] in E; try discriminate. inversion E; subst. constructor; eauto.
Qed.
Lemma minify_fit o d d' : ends_fit (d_nodes d) -> minify o d = Ok d' -> ends_fit (d_nodes d').
Proof.
  intros Hd E. unfold minify in E. destruct (loop _ _ _) as [g| |]; cbn [bind] in E; try discriminate.
  destruct (mapM (min_node _ _ _ _) _) as [nodes'| |] eqn:En; cbn [bind] in E; try discriminate.
  destruct (new_ref _ _ _) as [b| |]; cbn [bind] in E; try discriminate. destruct (foldM _ _ _) as [en| |]; cbn [bind] in E; try discriminate. inversion E; subst. cbn [d_nodes].
  eapply (mapM_all (fun _ => True)); [|apply Forall_forall; auto|exact En]. intros x nd _ Ex. unfold min_node in Ex.
  destruct (hd_error _) as [r|]; cbn [of_opt bind] in Ex; try discriminate. destruct (nth_error (d_nodes d) r) as [nd0|] eqn:E0; cbn [of_opt bind] in Ex; try discriminate.
  destruct (compress g nd0) as [k| |] eqn:Ek; cbn [bind] in Ex; try discriminate.
  eapply mapM_all; [|eapply compress_fit; [|exact Ek]|exact Ex].
  - intros a b0 Ha Ea. cbv beta in Ea. destruct (Nat.ltb _ _); inversion Ea; subst; auto.
  - unfold ends_fit in Hd. rewrite Forall_forall in Hd. eapply Hd, nth_error_In; eauto.
Qed.
Lemma tok_new_fit {E T} d (mk : list (list N -> list T -> E)) t : ends_fit (d_nodes d) -> tok_new d mk = Ok t -> ends_fit (tk_goto t).
Proof.
  intros Hd Et. unfold tok_new in Et. destruct (mapM _ (d_nodes d)) as [goto| |] eqn:Eg; cbn [bind] in Et; try discriminate.
  destruct (index_map d (d_begin d)) as [b| |]; cbn [bind] in Et; try discriminate. destruct (foldM _ _ _) as [en| |]; cbn [bind] in Et; try discriminate. inversion Et; subst. cbn [tk_goto].
  eapply mapM_all; [|exact Hd|exact Eg]. intros a b0 Ha Ea. eapply mapM_all; [|exact Ha|exact Ea]. intros [r j] y Hr Ey. cbv beta in Ey. cbn [fst snd] in *.
  destruct (index_map d j); cbn [bind] in Ey; inversion Ey; subst. auto.
Qed.

(** *** build *)
Section B.
  Context {E T P PErr : Type}.
  Variable parse : P -> hir + PErr.
  Hypothesis Hwf : forall p h, parse p = inl h -> wf_hir h.

  Lemma parse_all_wf ps hs : parse_all P PErr parse ps = inl hs -> Forall wf_hir hs.
  Proof. intros H. apply parse_all_ok in H. induction H; constructor; eauto. Qed.
  Lemma build32_eq w env fuel (patterns : list (P * (list N -> list T -> E))) : build32 w P PErr parse env fuel patterns = build P PErr parse env fuel patterns.
  Proof.
    unfold build32, build. rewrite split_map. destruct (parse_all P PErr parse (map fst patterns)) as [hirs|e] eqn:Hp; auto.
    destruct (tnfa32_ok w hirs (parse_all_wf _ _ Hp)) as [A B]. rewrite A. destruct (tnfa_of hirs) as [t| |]; auto. rewrite dfa32_eq; auto.
  Qed.
  Lemma build_fit env fuel (patterns : list (P * (list N -> list T -> E))) t ws : build P PErr parse env fuel patterns = BOk (t, ws) -> ends_fit (tk_goto t).
  Proof.
    unfold build. rewrite split_map. intros Hb. destruct (parse_all P PErr parse (map fst patterns)) as [hirs|e] eqn:Hp; try discriminate.
    destruct (tnfa32_ok true hirs (parse_all_wf _ _ Hp)) as [_ B]. destruct (tnfa_of hirs) as [nf| |]; try discriminate. specialize (B nf eq_refl).
    destruct (dfa_of (be_order env) fuel nf) as [[d ws']| |] eqn:Ed; cbn [bind of_res] in Hb; try discriminate.
    destruct (minify (be_min env) d) as [d'| |] eqn:Em; cbn [bind of_res] in Hb; try discriminate.
    destruct (tok_new d' (map snd patterns)) as [t'| |] eqn:Et; cbn [bind of_res] in Hb; try discriminate. inversion Hb; subst.
    eapply tok_new_fit; [|exact Et]. eapply minify_fit; [|exact Em]. eapply dfa_fit; eauto.
  Qed.
End B.
