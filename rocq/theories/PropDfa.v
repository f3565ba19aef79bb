(** Properties of the two automaton transformations.  C09, C11, C12. *)
From Verif Require Import Lib Hir NfaPath NfaSem NfaModel NfaProofs NfaExact TokNfa DfaModel DfaEdges DfaProofs DfaTop MinModel MinProofs MinTop TokModel TokSpec TokProofs TokTop TokMore MinSafe TokExamples.

(** C09: for every nondeterministic automaton [t] (node [q] is reached from node [p] by reading
    [w] along edges: [path (hedge (tn_nodes t)) p w q]) the subset construction ends, and after
    reading [w] the result is stuck iff no node is reachable by [w]; otherwise it accepts the
    smallest pattern whose final node is reachable by [w], or nothing if there is none. *)
Theorem C09_determinisation : forall t, nfa_wf t ->
  exists F, forall order fuel, (forall l, Permutation (order l) l) -> F <= fuel ->
  exists d ws, dfa_of order fuel t = Ok (d, ws) /\
    forall w, let reach q := path (hedge (tn_nodes t)) (tn_begin t) w q in
      (drun (d_nodes d) (d_begin d) w = None <-> forall q, ~ reach q) /\
      forall i, drun (d_nodes d) (d_begin d) w = Some i ->
        forall p, aget Nat.eqb i (d_end d) = Some p <->
          (exists e, nth_error (tn_end t) p = Some e /\ reach e) /\
          (forall p' e, p' < p -> nth_error (tn_end t) p' = Some e -> ~ reach e).
Proof.
  intros t Ht. destruct (dfa_of_any t Ht) as (F & nodes & HF). exists F. intros order fuel Ho Hf.
  destruct (HF order fuel Ho Hf) as (en & ws & E & G & _ & D). eexists _, ws. split; [exact E|].
  intros w reach. split; [apply D|]. intros i Hi p. rewrite (dg_accept _ _ _ G w i Hi p). unfold first_match, nfa_lang. split.
  - intros (A & B & C). split; auto. intros p' e Hp' He Hr. apply (C p' Hp'). exists e. auto.
  - intros ((e & A & B) & C). split; [eapply nth_error_Some_lt; eauto|]. split; [exists e; auto|].
    intros p' Hp' (e' & He' & Hr). eapply C; eauto.
Qed.
Print Assumptions C09_determinisation.
(** the automata built from expressions are well-formed *)
Example C09_example : exists t, tnfa_of demo_hirs = NOk t /\ nfa_wf t /\ length (tn_end t) = 4.
Proof.
  destruct (tnfa_of_spec demo_hirs demo_wf) as [(t & E & G)|(i & h & e & E & _)]; [|vm_compute in E; discriminate].
  exists t. split; auto. split; [eapply tnfa_good_wf; eauto|]. apply G.
Qed.

(** C11, C12, provable part.  [obs d i w] is None if [w] gets stuck from state [i], otherwise
    the accepted pattern, if any.  The hypothesis [honest] is what is missing: in the code two
    transition tables with equal range starts but different range ends are equal for the hash
    table, and are told apart only by their hashes. *)
Theorem C11_minify_preserves_partial : forall o d, oracle_ok o -> honest o -> dfa_wf d ->
  exists d', minify o d = Ok d' /\ dfa_wf d' /\ forall w, obs d' (d_begin d') w = obs d (d_begin d) w.
Proof. intros o d Ho Hh Hd. destruct (minify_any o d Ho Hd) as (d' & A & B & C & D). exists d'. split; auto. split; auto. apply D; auto. Qed.
Print Assumptions C11_minify_preserves_partial.
Theorem C12_minimal : forall o d, oracle_ok o -> honest o -> dfa_wf d ->
  exists d', minify o d = Ok d' /\ length (d_nodes d') <= length (d_nodes d) /\
    forall i j, i < length (d_nodes d') -> j < length (d_nodes d') -> i <> j -> exists w, obs d' i w <> obs d' j w.
Proof. intros o d Ho Hh Hd. destruct (minify_any o d Ho Hd) as (d' & A & B & C & D). exists d'. split; auto. split; auto. apply D; auto. Qed.
Print Assumptions C12_minimal.
(** minify itself ends without panic whatever the hash tables do *)
Theorem C14_minify_total : forall o d, oracle_ok o -> dfa_wf d -> exists d', minify o d = Ok d' /\ dfa_wf d'.
Proof. intros o d Ho Hd. destruct (minify_any o d Ho Hd) as (d' & A & B & _). eauto. Qed.
Print Assumptions C14_minify_total.
(** states 1 and 3 of this table are merged *)
Definition d_demo : dfa := mk_dfa [[((97%N, 98%N), 1); ((98%N, 99%N), 3)]; [((97%N, 98%N), 2)]; []; [((97%N, 98%N), 2)]] 0 [(2, 0)].
Example C11_example : oracle_ok plain_min /\ honest plain_min /\ dfa_wf d_demo /\ exists d', minify plain_min d_demo = Ok d' /\ length (d_nodes d') = 3.
Proof.
  destruct plain_ok as [[_ H1] H2]. split; auto. split; auto. split; [|eexists; split; vm_compute; reflexivity]. split.
  - assert (G : Forall (fun nd => ranges_ok nd) (d_nodes d_demo)).
    { unfold d_demo. cbn [d_nodes]. repeat apply Forall_cons; try apply Forall_nil; split; repeat apply Forall_cons; try apply Forall_nil; cbn [fst snd]; try lia.
      all: repeat (apply SSorted_cons || apply SSorted_nil || apply Forall_cons || apply Forall_nil); cbn [fst snd]; lia. }
    intros i nd Hi. rewrite Forall_forall in G. apply G. eapply nth_error_In; eauto.
  - assert (G : Forall (Forall (fun x => snd x < 4)) (d_nodes d_demo)) by (repeat constructor).
    intros i nd r j Hi Hin. rewrite Forall_forall in G. apply nth_error_In in Hi. specialize (G _ Hi). rewrite Forall_forall in G. apply (G _ Hin).
  - simpl. lia.
  - intros i p [H|[]]. inversion H; subst. simpl. lia.
  - repeat constructor. simpl. tauto.
Qed.

(** C11, C12 for every hash seed, for the tables that pass the test [safe_nodes] of MinSafe.v: any two
    states differ in their first character, or no run of characters that both have ends in one of
    them and goes on in the other. *)
Theorem C11_safe_tables_any_seed : forall o d, oracle_ok o -> dfa_wf d -> safe_nodes (d_nodes d) = true ->
  exists d', minify o d = Ok d' /\ dfa_wf d' /\ (forall w, obs d' (d_begin d') w = obs d (d_begin d) w) /\
    forall i j, i < length (d_nodes d') -> j < length (d_nodes d') -> i <> j -> exists w, obs d' i w <> obs d' j w.
Proof.
  intros o d Ho Hd Hs. destruct (minify_any (strict o) d (strict_ok o Ho) Hd) as (d' & A & B & C & D). exists d'.
  rewrite minify_strict in A; [|apply safe_tame; auto; apply Hd]. destruct (D (strict_honest o)) as [D1 D2]. auto.
Qed.
Print Assumptions C11_safe_tables_any_seed.
Definition d_safe : dfa := mk_dfa [[((99%N, 100%N), 1); ((100%N, 101%N), 3)]; [((97%N, 98%N), 2)]; []; [((97%N, 98%N), 2)]] 0 [(2, 0)].
Example C11_safe_example : oracle_ok unlucky_min /\ ~ honest unlucky_min /\ dfa_wf d_safe /\ safe_nodes (d_nodes d_safe) = true.
Proof.
  split; [apply unlucky_ok|]. split; [intros H; specialize (H 0 0 [((97%N, 98%N), 0)] [((97%N, 99%N), 0)] eq_refl eq_refl); discriminate|]. split; [|reflexivity]. split.
  - assert (G : Forall (fun nd => ranges_ok nd) (d_nodes d_safe)).
    { unfold d_safe. cbn [d_nodes]. repeat apply Forall_cons; try apply Forall_nil; split; repeat apply Forall_cons; try apply Forall_nil; cbn [fst snd]; try lia.
      all: repeat (apply SSorted_cons || apply SSorted_nil || apply Forall_cons || apply Forall_nil); cbn [fst snd]; lia. }
    intros i nd Hi. rewrite Forall_forall in G. apply G. eapply nth_error_In; eauto.
  - assert (G : Forall (Forall (fun x => snd x < 4)) (d_nodes d_safe)) by (repeat constructor).
    intros i nd r j Hi Hin. rewrite Forall_forall in G. apply nth_error_In in Hi. specialize (G _ Hi). rewrite Forall_forall in G. apply (G _ Hin).
  - simpl. lia.
  - intros i p [H|[]]. inversion H; subst. simpl. lia.
  - repeat constructor. simpl. tauto.
Qed.

(** C11: the full claim is false.  For a[b-c]|d[b-e] and unlucky hash seeds the minimised
    automaton accepts "ad", which the original does not, or loses "dd". *)
Theorem C11_minify_preserves_refuted : exists o d w, oracle_ok o /\ dfa_wf d /\
  (exists t ws, tnfa_of [h_unlucky] = NOk t /\ dfa_of (fun l => l) 100 t = Ok (d, ws)) /\
  exists d', minify o d = Ok d' /\ obs d' (d_begin d') w <> obs d (d_begin d) w.
Proof.
  destruct (tnfa_of [h_unlucky]) as [t|e|] eqn:Et; try (vm_compute in Et; discriminate).
  destruct (dfa_of (fun l => l) 100 t) as [[d ws]| |] eqn:Ed; try (vm_compute in Et; inversion Et; subst; vm_compute in Ed; discriminate).
  exists unlucky_min, d, [100; 100]%N. destruct unlucky_ok as [_ Hu]. split; auto.
  assert (Hw : Forall wf_hir [h_unlucky]).
  { constructor; [|constructor]. assert (H : forall a b : N, (a <=? b)%N = true -> (a <= b)%N) by (intros a b; apply N.leb_le).
    assert (HC : forall a b, (a <=? b)%N = true -> (b <=? max_char)%N = true -> wf_hir (cls a b)) by (intros a b Ha Hb; apply wf_cls; auto).
    repeat split; try discriminate; try (apply H; reflexivity); try (apply HC; reflexivity). }
  split; [|split].
  - destruct (tnfa_of_spec _ Hw) as [(t' & Et' & Hg)|(i & h & e & Et' & _)]; [|congruence]. assert (t' = t) by congruence. subst t'.
    destruct (dfa_of_spec _ _ Hg) as (F & nodes & HF).
    destruct (HF (fun l => l) (max F 100) (fun l => Permutation_refl l)) as (en & ws' & E1 & G & _); [lia|].
    rewrite (dfa_of_mono _ _ _ _ _ Ed (Nat.le_max_r F 100)) in E1. inversion E1; subst. eapply dfa_good_wf; eauto.
  - exists t, ws. auto.
  - vm_compute in Et. injection Et as <-. vm_compute in Ed. injection Ed as <- <-. eexists. split; [vm_compute; reflexivity|]. vm_compute. discriminate.
Qed.
Print Assumptions C11_minify_preserves_refuted.
