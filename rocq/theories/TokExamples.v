(** Concrete tokenizers used as witnesses beside the property theorems. *)
From Verif Require Import Lib Hir NfaPath NfaSem NfaModel NfaProofs NfaExact TokNfa DfaModel DfaEdges DfaProofs DfaTop MinModel MinProofs MinTop TokModel TokSpec TokProofs TokTop TokMore.

(** ** Hash tables that iterate in insertion order and never confuse keys *)
Fixpoint key_same (k1 k2 : list ((N * N) * nat)) : bool :=
  match k1, k2 with
  | [], [] => true
  | (r1, v1) :: k1', (r2, v2) :: k2' => N.eqb (fst r1) (fst r2) && N.eqb (snd r1) (snd r2) && Nat.eqb v1 v2 && key_same k1' k2'
  | _, _ => false
  end.
Lemma key_same_eq k1 : forall k2, key_same k1 k2 = true <-> k1 = k2.
Proof.
  induction k1 as [|[[a b] v] k1 IH]; intros [|[[a' b'] v'] k2]; simpl; try (split; congruence).
  rewrite !Bool.andb_true_iff, IH, !N.eqb_eq, Nat.eqb_eq. split; [intros [[[-> ->] ->] ->]; auto|intros H; inversion H; auto].
Qed.
Definition plain_min : hash_oracle := mk_oracle (fun _ _ l => l) (fun _ _ l => l) (fun _ _ => key_same) (fun _ l => l).
Definition plain_env : build_env := mk_env (fun l => l) plain_min.
(** the same with every iteration reversed *)
Definition rev_min : hash_oracle := mk_oracle (fun _ _ l => rev l) (fun _ _ l => rev l) (fun _ _ => key_same) (fun _ l => rev l).
Definition rev_env : build_env := mk_env (fun l => rev l) rev_min.
(** keys with the same range starts are always taken for each other *)
Definition unlucky_min : hash_oracle := mk_oracle (fun _ _ l => l) (fun _ _ l => l) (fun _ _ => key_eq) (fun _ l => l).
Definition unlucky_env : build_env := mk_env (fun l => l) unlucky_min.

Lemma plain_ok : env_ok plain_env /\ env_honest plain_env.
Proof.
  split; [split; [intros; apply Permutation_refl|split; intros; try apply Permutation_refl; simpl; apply key_same_eq; auto]|].
  intros it n k k' H _. apply key_same_eq in H. auto.
Qed.
Lemma rev_ok : env_ok rev_env /\ env_honest rev_env.
Proof.
  split; [split; [intros; apply Permutation_sym, Permutation_rev|split; intros; try (apply Permutation_sym, Permutation_rev); simpl; apply key_same_eq; auto]|].
  intros it n k k' H _. apply key_same_eq in H. auto.
Qed.
Lemma key_eq_refl k : key_eq k k = true.
Proof. induction k as [|[[a b] v] k IH]; simpl; auto. rewrite N.eqb_refl, Nat.eqb_refl, IH. reflexivity. Qed.
Lemma unlucky_ok : env_ok unlucky_env.
Proof. split; [intros; apply Permutation_refl|split; intros; try apply Permutation_refl; simpl; apply key_eq_refl]. Qed.

(** ** Patterns: a numbered list of expressions *)
Definition parse_in (hs : list hir) (n : nat) : hir + unit := match nth_error hs n with Some h => inl h | None => inr tt end.
Lemma parse_in_wf hs : Forall wf_hir hs -> forall p h, parse_in hs p = inl h -> wf_hir h.
Proof. intros H p h. unfold parse_in. destruct (nth_error hs p) as [h'|] eqn:E; intros Ei; inversion Ei; subst. rewrite Forall_forall in H. apply H. eapply nth_error_In; eauto. Qed.
(** makers that keep the number of the pattern, the text and the items *)
Definition tag (i : nat) : list N -> list (nat * N) -> nat * list N * list (nat * N) := fun w items => (i, w, items).
Definition tagged (n : nat) := map (fun i => (i, tag i)) (seq 0 n).
(** code points with their positions *)
Definition numbered (w : list N) : list (nat * N) := combine (seq 0 (length w)) w.

Definition cls (a b : N) : hir := HClassU [(a, b)].
(** if, [a-z]+, [0-9]+(\.[0-9])?, [ ] *)
Definition h_if : hir := HConcat [HLitU 105; HLitU 102].
Definition h_id : hir := HRep ROneOrMore true (cls 97 122).
Definition h_num : hir := HRep ROneOrMore true (cls 48 57).
Definition h_sp : hir := HLitU 32.
Definition demo_hirs : list hir := [h_if; h_id; h_num; h_sp].
Lemma wf_cls a b : (a <= b)%N -> (b <= max_char)%N -> wf_class [(a, b)].
Proof. intros. split; repeat constructor; auto. Qed.
Lemma demo_wf : Forall wf_hir demo_hirs.
Proof.
  assert (H : forall a b : N, (a <=? b)%N = true -> (a <= b)%N) by (intros a b; apply N.leb_le).
  assert (HL : forall c, (c <=? max_char)%N = true -> wf_hir (HLitU c)) by (intros c Hc; apply H; auto).
  assert (HC : forall a b, (a <=? b)%N = true -> (b <=? max_char)%N = true -> wf_hir (cls a b)) by (intros a b Ha Hb; apply wf_cls; auto).
  unfold demo_hirs. apply Forall_cons; [|apply Forall_cons; [|apply Forall_cons; [|apply Forall_cons; [|constructor]]]].
  - split; [discriminate|]. split; [apply HL; reflexivity|]. split; [apply HL; reflexivity|exact I].
  - split; [exact I|]. apply HC; reflexivity.
  - split; [exact I|]. apply HC; reflexivity.
  - apply HL; reflexivity.
Qed.
Definition demo (env : build_env) := build nat unit (parse_in demo_hirs) env 100 (tagged 4).
Definition demo_tok := match demo plain_env with BOk (t, _) => t | _ => mk_tok [] 0 [] [] end.
Definition demo_ws := match demo plain_env with BOk (_, ws) => ws | _ => [] end.
Lemma demo_built : demo plain_env = BOk (demo_tok, demo_ws).
Proof. vm_compute. reflexivity. Qed.
(** "if iffy 42" *)
Definition demo_text : list N := [105; 102; 32; 105; 102; 102; 121; 32; 52; 50]%N.

(** ** Expressions on which the tokenizer differs from the regular expression *)
(** (ab* )?  accepts "b" *)
Definition h_opt : hir := HRep RZeroOrOne true (HGroup (HConcat [HLitU 97; HRep RZeroOrMore true (HLitU 98)])).
(** (?:a[b-c]|d[b-e]) *)
Definition h_unlucky : hir := HAlt [HConcat [HLitU 97; cls 98 99]; HConcat [HLitU 100; cls 98 101]].
(** a* *)
Definition h_star : hir := HRep RZeroOrMore true (HLitU 97).
