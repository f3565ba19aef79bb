(** C83: translating the patterns uses its nodes correctly: whatever addresses the allocator hands out, no freed
    node is touched, no lock is waited for for ever, and in the end, also after an error, every node has been freed. *)
From Verif Require Import Lib Hir NfaModel NfaProofs NfaTop TokNfa MemModel MemTok.

(** An allocator never returns an address that is in use *)
Definition allocator (al : nat -> list nat -> nat) : Prop := forall t l, ~ In (al t l) l.
Definition empty (clock : nat) : store := mk_store [] clock.

Theorem C83_memory al ps clock : allocator al -> Forall wf_hir ps ->
  (exists t later, c_tnfa_of al ps (empty clock) = COk t (empty later) /\ tnfa_of ps = NOk t) \/
  (exists e later, c_tnfa_of al ps (empty clock) = CErr e (empty later) /\ tnfa_of ps = NErr e).
Proof.
  intros Ha Hw. pose proof (sim_tnfa al Ha ps clock) as H. destruct (tnfa_of_spec ps Hw) as [(t & E & _)|(i & h & e & E & _)]; rewrite E in H; destruct H as (k & H); [left; exists t, k|right; exists e, k]; auto.
Qed.
Print Assumptions C83_memory.

(** The result is a value: nothing of the memory is in it. *)
Definition outcome {A} (r : cres A) : option (A + nerr) := match r with COk a _ => Some (inl a) | CErr e _ => Some (inr e) | _ => None end.
Theorem C83_addresses al al' ps clock clock' : allocator al -> allocator al' -> Forall wf_hir ps ->
  outcome (c_tnfa_of al ps (empty clock)) <> None /\ outcome (c_tnfa_of al ps (empty clock)) = outcome (c_tnfa_of al' ps (empty clock')).
Proof.
  intros H H' Hw. destruct (C83_memory al ps clock H Hw) as [(t & k & E & R)|(e & k & E & R)], (C83_memory al' ps clock' H' Hw) as [(t' & k' & E' & R')|(e' & k' & E' & R')]; rewrite R in R'; try discriminate; injection R' as <-; rewrite E, E'; split; simpl; congruence.
Qed.
Print Assumptions C83_addresses.

(** *** Two allocators *)
Definition above (_ : nat) (l : list nat) : nat := S (fold_right Nat.max 0 l).
Definition hop (t : nat) (l : list nat) : nat := t + above t l.
Lemma above_max l x : In x l -> x <= fold_right Nat.max 0 l.
Proof. induction l; simpl; intros [->|H] || intros []; try lia. apply IHl in H. lia. Qed.
Lemma above_allocator : allocator above. Proof. intros t l H. apply above_max in H. unfold above in H. lia. Qed.
Lemma hop_allocator : allocator hop. Proof. intros t l H. apply above_max in H. unfold hop, above in H. lia. Qed.

Definition some_patterns : list hir :=
  [HRep (RExactly 3) true (HAlt [HLitU 97%N; HEmpty]); HRep (RBounded 0 3) true (HConcat [HLitU 97%N; HClassU [(98, 99)%N]]);
   HRep (RExactly 0) true (HLitU 97%N); HRep (RBounded 2 4) true (HLitU 97%N); HRep (RAtLeast 2) true (HRep RZeroOrMore true (HLitU 97%N));
   HRep RZeroOrOne true (HRep ROneOrMore true (HLitU 97%N))].
Lemma some_wf : Forall wf_hir some_patterns.
Proof. repeat constructor; simpl; repeat split; try lia; try discriminate; repeat constructor; simpl; try lia; repeat split; try discriminate; try lia. Qed.
Example C83_example :
  (exists t k, c_tnfa_of above some_patterns (empty 0) = COk t (empty k) /\ length (tn_nodes t) = 45) /\
  (exists k, c_tnfa_of hop (some_patterns ++ [HAlt [HLitU 97%N; HConcat [HAnchor; HEmpty]]]) (empty 5) = CErr EAnchor (empty k)).
Proof. split; [eexists; eexists|eexists]; [split|]; vm_compute; reflexivity. Qed.

(** The memory does notice wrong use: a node after its last [Arc] is gone, a lock taken twice, and an [Arc] that is not dropped. *)
Example C83_notices :
  (cdo p <- new above; release p ;; peek p) (empty 0) = CDangling /\
  (cdo p <- new above; lock p ;; write p (to_eps p)) (empty 0) = CDeadlock /\
  (forall k, (cdo p <- new above; retain p ;; release p) (empty 0) <> COk tt (empty k)) /\
  (cdo p <- new above; cdo q <- new above; write p (to_eps q) ;; release q ;; c_clone above (mk_nfa [p] p p)) (empty 0) = CPanic.
Proof. repeat split; try (vm_compute; reflexivity). intros k H. vm_compute in H. discriminate. Qed.
(** An allocator that hands out an address twice spoils the result. *)
Example C83_allocator_needed : exists ps, Forall wf_hir ps /\ outcome (c_tnfa_of (fun _ _ => 0) ps (empty 0)) <> outcome (c_tnfa_of above ps (empty 0)).
Proof. exists [HLitU 97%N]. split; [apply Forall_cons; [simpl; unfold max_char; lia|apply Forall_nil]|vm_compute; discriminate]. Qed.
