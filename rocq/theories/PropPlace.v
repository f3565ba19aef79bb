(** C84: neither the addresses of the boxes nor the order of a pointer set reaches the table of the tokenizer. *)
From Coq Require Import List Arith NArith Lia Permutation.
From Verif Require Import Lib Hir NfaModel DfaModel NfaPath NfaProofs TokNfa DfaProofs DfaTop MinTop TokMore TokExamples PropDfa PlaceSpec PlaceProofs PlaceTop.
Import ListNotations.

(** a result the construction can give: some iteration order of the map from node sets to states leads to it *)
Definition possible (fuel : nat) (t : tnfa) (r : dfa * list end_conflict) : Prop :=
  exists order, (forall l, Permutation (order l) l) /\ dfa_of order fuel t = Ok r.

Theorem C84_addresses : forall place t t', placed place t t' -> nfa_wf t -> nfa_wf t' ->
  exists F, forall fuel, F <= fuel ->
    (forall order, (forall l, Permutation (order l) l) -> exists r, dfa_of order fuel t' = Ok r) /\
    forall r, possible fuel t' r <-> possible fuel t r.
Proof.
  intros place t t' HP Hw Hw'. destruct (dfa_of_any t Hw) as (F & nodes & HF). exists F. intros fuel Hf.
  destruct (HF (fun l => l) fuel (fun l => Permutation_refl l) Hf) as (en & ws & E & _).
  assert (G : forall order, (forall l, Permutation (order l) l) -> exists order' r, (forall l, Permutation (order' l) l) /\ dfa_of order fuel t' = Ok r /\ dfa_of order' fuel t = Ok r).
  { intros order Ho. destruct (placed_dfa place t t' HP Hw Hw' order fuel _ _ Ho (ex_intro _ _ E)) as (o' & d' & ws' & A & B & C). exists o', (d', ws'). auto. }
  split; [intros order Ho; destruct (G order Ho) as (_ & r & _ & A & _); eauto|]. intros r. split; intros (order & Ho & Er).
  - destruct (G order Ho) as (o' & r' & Ho' & A & B). exists o'. split; auto. congruence.
  - destruct r as [d w]. destruct (placed_back place t t' HP Hw Hw' order fuel d w Ho Er) as (o' & Ho' & A). exists o'. auto.
Qed.
Print Assumptions C84_addresses.

(** What a user of the table sees: every text gets the same answer, whatever addresses and orders were used. *)
Theorem C84_same_answers : forall place t t', placed place t t' -> nfa_wf t -> nfa_wf t' ->
  exists F, forall fuel order order', F <= fuel -> (forall l, Permutation (order l) l) -> (forall l, Permutation (order' l) l) ->
    exists d ws d' ws', dfa_of order fuel t = Ok (d, ws) /\ dfa_of order' fuel t' = Ok (d', ws') /\
      d_nodes d' = d_nodes d /\ d_begin d' = d_begin d /\ forall w, obs d' (d_begin d') w = obs d (d_begin d) w.
Proof.
  intros place t t' HP Hw Hw'. destruct (dfa_of_any t Hw) as (F & nodes & HF). exists F. intros fuel order order' Hf Ho Ho'.
  destruct (HF order fuel Ho Hf) as (en & ws & E & G & _). destruct (placed_dfa place t t' HP Hw Hw' order' fuel _ _ Ho' (ex_intro _ _ E)) as (o2 & d' & ws' & Ho2 & B & C).
  destruct (HF o2 fuel Ho2 Hf) as (en2 & ws2 & E2 & G2 & _). assert (X : (d', ws') = (mk_dfa nodes 0 en2, ws2)) by congruence. injection X as -> ->.
  do 4 eexists. split; [exact E|]. split; [exact B|]. split; [reflexivity|]. split; [reflexivity|]. intros w. unfold obs. cbn [d_nodes d_begin d_end].
  destruct (drun nodes 0 w) as [i|] eqn:Ei; [|reflexivity]. simpl. f_equal. pose proof (dg_accept _ _ _ G w i Ei) as A1. pose proof (dg_accept _ _ _ G2 w i Ei) as A2. cbn [d_end] in A1, A2.
  destruct (aget Nat.eqb i en2) as [p|] eqn:P2; [symmetry; apply A1, A2; reflexivity|]. destruct (aget Nat.eqb i en) as [p|] eqn:P1; [|reflexivity]. apply A2, A1. reflexivity.
Qed.
Print Assumptions C84_same_answers.

(** Every well-formed automaton meets the hypotheses with other addresses: here the boxes lie at the odd addresses, from the last to
    the first, cells that are not in use lie between them, and every pointer set is listed backwards. *)
Definition mplace (n x : nat) : nat := if x <? n then 2 * (n - 1 - x) + 1 else 2 * x + 2.
Definition moved_node (n : nat) (nd : nnode) : nnode :=
  mk_nnode (rev (map (mplace n) (n_eps nd))) (map (fun x => (fst x, rev (map (mplace n) (snd x)))) (n_next nd)).
Definition moved (t : tnfa) : tnfa := let n := length (tn_nodes t) in
  mk_tnfa (flat_map (fun nd => [nnode_default; moved_node n nd]) (rev (tn_nodes t))) (mplace n (tn_begin t)) (map (mplace n) (tn_end t)).

Lemma nth_pairs {A} (f : A -> A) (d : A) l : forall k,
  nth_error (flat_map (fun x => [d; f x]) l) (2 * k + 1) = option_map f (nth_error l k) /\
  (nth_error (flat_map (fun x => [d; f x]) l) (2 * k) = if k <? length l then Some d else None).
Proof.
  induction l as [|x l IH]; intros k; [simpl; destruct k; simpl; rewrite ?Nat.add_0_r; split; auto; try (destruct (k + S k); auto)|].
  destruct k as [|k]; [split; reflexivity|]. destruct (IH k) as [E1 E2]. replace (2 * S k + 1) with (S (S (2 * k + 1))) by lia. replace (2 * S k) with (S (S (2 * k))) by lia. cbn [flat_map app nth_error length]. rewrite E1, E2. split; reflexivity.
Qed.
Lemma nth_rev {A} (l : list A) k : k < length l -> nth_error (rev l) (length l - 1 - k) = nth_error l k.
Proof.
  revert k. induction l as [|x l IH]; intros k Hk; simpl in *; [lia|]. destruct k as [|k].
  - rewrite nth_error_app2 by (rewrite rev_length; lia). rewrite rev_length. replace (length l - 0 - 0 - length l) with 0 by lia. reflexivity.
  - rewrite nth_error_app1 by (rewrite rev_length; lia). simpl. rewrite <- IH by lia. f_equal. lia.
Qed.
Lemma moved_at t p nd : nth_error (tn_nodes t) p = Some nd -> nth_error (tn_nodes (moved t)) (mplace (length (tn_nodes t)) p) = Some (moved_node (length (tn_nodes t)) nd).
Proof.
  intros E. assert (Hp : p < length (tn_nodes t)) by (apply nth_error_Some; congruence). unfold moved. cbn [tn_nodes]. replace (mplace (length (tn_nodes t)) p) with (2 * (length (tn_nodes t) - 1 - p) + 1) by (unfold mplace; rewrite (proj2 (Nat.ltb_lt _ _) Hp); reflexivity).
  rewrite (proj1 (nth_pairs (moved_node (length (tn_nodes t))) nnode_default _ _)). rewrite nth_rev by auto. rewrite E. reflexivity.
Qed.
Lemma moved_placed t : placed (mplace (length (tn_nodes t))) t (moved t).
Proof.
  split; try reflexivity.
  - intros x y. unfold mplace. destruct (Nat.ltb_spec x (length (tn_nodes t))), (Nat.ltb_spec y (length (tn_nodes t))); lia.
  - intros p nd E. exists (moved_node (length (tn_nodes t)) nd). split; [apply moved_at; auto|]. split; [apply Permutation_rev|]. simpl. induction (n_next nd); simpl; constructor; auto. split; [reflexivity|apply Permutation_rev].
Qed.
Lemma pairs_length {A} (f : A -> A) d l : length (flat_map (fun x => [d; f x]) l) = 2 * length l.
Proof. induction l; simpl; lia. Qed.
Lemma moved_wf t : nfa_wf t -> nfa_wf (moved t).
Proof.
  intros Hw. set (n := length (tn_nodes t)). assert (L : length (tn_nodes (moved t)) = 2 * n) by (unfold moved; cbn [tn_nodes]; rewrite pairs_length, rev_length; reflexivity).
  assert (lt : forall x, x < n -> mplace n x < 2 * n) by (intros x Hx; unfold mplace; rewrite (proj2 (Nat.ltb_lt _ _) Hx); lia). split.
  - unfold okh, moved. cbn [tn_nodes]. apply Forall_forall. intros nd Hi. apply in_flat_map in Hi as (x & Hx & Hi). apply in_rev in Hx. destruct Hi as [<-|[<-|[]]]; [intros r s []|].
    intros r s Hi. cbn [moved_node n_next] in Hi. apply in_map_iff in Hi as ([r0 s0] & E & Hi). cbn [fst snd] in E. injection E as <- <-. pose proof (nw_ok _ Hw) as Ho. unfold okh in Ho. rewrite Forall_forall in Ho. destruct (Ho x Hx _ _ Hi) as [A B]. split; auto.
    intros C. apply B. apply (f_equal (@length _)) in C. rewrite rev_length, map_length in C. destruct s0; auto. discriminate.
  - rewrite L. apply lt, Hw.
  - rewrite L. intros x l y Hx (nd & En & He). unfold moved in En. cbn [tn_nodes] in En. fold n in En.
    destruct (Nat.Even_or_Odd x) as [[k ->]|[k ->]].
    + rewrite (proj2 (nth_pairs (moved_node n) nnode_default _ k)) in En. destruct (k <? _); [|discriminate]. injection En as <-. destruct l as [c|]; simpl in He; [destruct He as (r & s & [] & _)|contradiction].
    + rewrite (proj1 (nth_pairs (moved_node n) nnode_default _ k)) in En. destruct (nth_error (rev (tn_nodes t)) k) as [nd0|] eqn:E0; [|discriminate]. injection En as <-.
      apply nth_error_In, in_rev in E0. destruct (In_nth_error _ _ E0) as [p Ep]. assert (Hp : p < n) by (apply nth_error_Some; congruence).
      destruct l as [c|]; simpl in He.
      * destruct He as (r & s & Hi & Hc & Hy). apply in_map_iff in Hi as ([r0 s0] & E & Hi). cbn [fst snd] in E. injection E as <- <-. apply in_rev in Hy. apply in_map_iff in Hy as (y0 & <- & Hy). apply lt, (nw_closed _ Hw p (Some c) y0 Hp). exists nd0. split; auto. exists r0, s0. auto.
      * apply in_rev in He. apply in_map_iff in He as (y0 & <- & Hy). apply lt, (nw_closed _ Hw p None y0 Hp). exists nd0. split; auto.
Qed.
(** the automaton of four patterns, moved: it differs from the one of the model, and meets the hypotheses *)
Example C84_example : exists t, tnfa_of demo_hirs = NOk t /\ nfa_wf t /\ nfa_wf (moved t) /\ placed (mplace (length (tn_nodes t))) t (moved t) /\ length (tn_nodes (moved t)) = 2 * length (tn_nodes t) /\ tn_begin (moved t) <> tn_begin t.
Proof.
  destruct C09_example as (t & E & Hw & _). exists t. split; auto. split; auto. split; [apply moved_wf; auto|]. split; [apply moved_placed|]. split; [unfold moved; cbn [tn_nodes]; rewrite pairs_length, rev_length; reflexivity|].
  vm_compute in E. injection E as <-. vm_compute. discriminate.
Qed.

(** Two boxes at one address would not do: with the final nodes of the patterns [a] and [b] in one place the text [b] is taken for [a]. *)
Definition two_ends : tnfa := mk_tnfa [mk_nnode [] [((97, 98)%N, [1]); ((98, 99)%N, [2])]; mk_nnode [] []; mk_nnode [] []] 0 [1; 2].
Definition one_end : tnfa := mk_tnfa [mk_nnode [] [((97, 98)%N, [1]); ((98, 99)%N, [1])]; mk_nnode [] []] 0 [1; 1].
Theorem C84_distinct_needed : exists place t t', nfa_wf t /\ nfa_wf t' /\
  (forall p nd, nth_error (tn_nodes t) p = Some nd -> exists nd', nth_error (tn_nodes t') (place p) = Some nd' /\
    Permutation (map place (n_eps nd)) (n_eps nd') /\
    Forall2 (fun x x' => fst x = fst x' /\ Permutation (map place (snd x)) (snd x')) (n_next nd) (n_next nd')) /\
  tn_begin t' = place (tn_begin t) /\ tn_end t' = map place (tn_end t) /\
  exists d ws d' ws' w, dfa_of (fun l => l) 20 t = Ok (d, ws) /\ dfa_of (fun l => l) 20 t' = Ok (d', ws') /\ obs d' (d_begin d') w <> obs d (d_begin d) w.
Proof.
  exists (fun x => Nat.min x 1), two_ends, one_end. split; [|split; [|split; [|split; [|split]]]].
  - split; [|simpl; lia|].
    + repeat constructor; simpl in *; intuition (try discriminate); repeat match goal with H : (_, _) = (_, _) |- _ => injection H as <- <- end; simpl; try lia; discriminate.
    + intros [|[|[|x]]] [c|] y Hx (nd & En & He); simpl in *; try lia; injection En as <-; simpl in He; try contradiction; destruct He as (r & s & Hi & _ & Hy); simpl in Hi; intuition; repeat match goal with H : (_, _) = (_, _) |- _ => injection H as <- <- end; simpl in Hy; lia.
  - split; [|simpl; lia|].
    + repeat constructor; simpl in *; intuition (try discriminate); repeat match goal with H : (_, _) = (_, _) |- _ => injection H as <- <- end; simpl; try lia; discriminate.
    + intros [|[|x]] [c|] y Hx (nd & En & He); simpl in *; try lia; injection En as <-; simpl in He; try contradiction; destruct He as (r & s & Hi & _ & Hy); simpl in Hi; intuition; repeat match goal with H : (_, _) = (_, _) |- _ => injection H as <- <- end; simpl in Hy; lia.
  - intros [|[|[|p]]] nd E; simpl in E; try (destruct p; discriminate); injection E as <-; eexists; split; try reflexivity; simpl; split; auto.
  - reflexivity.
  - reflexivity.
  - do 4 eexists. exists [98]%N. split; [vm_compute; reflexivity|]. split; [vm_compute; reflexivity|]. vm_compute. discriminate.
Qed.
Print Assumptions C84_distinct_needed.
