(** C85: building a tokenizer uses its raw pointers correctly: whatever addresses the allocator hands out and however the hash
    tables are iterated, no pointer without a box is followed, nothing panics, every box is freed in the end, also after an
    error, and the tokenizer is one that the description by positions gives. *)
From Coq Require Import Permutation.
From Verif Require Import Lib Hir NfaModel TokNfa DfaModel MinModel TokModel TokSpec TokTop TokExamples PropBuild ActualSpec PropActual PropMem BoxModel BoxSpec BoxTop.

Theorem C85_pointers : forall E T P PErr (parse : P -> hir + PErr) (patterns : list (P * (list N -> list T -> E))) hirs ev clock,
  parses_wf parse -> parsed parse patterns hirs -> env_fine ev ->
  exists F, forall fuel, F <= fuel ->
    match x_build ev fuel hirs (map snd patterns) (no_boxes clock) with
    | XOk r m => (exists later, m = no_boxes later) /\ exists env, env_ok env /\ (honest (ev_min ev) -> env_honest env) /\ build P PErr parse env fuel patterns = BOk r
    | XErr e m => (exists later, m = no_boxes later) /\ forall env, build P PErr parse env fuel patterns = BErr (ConstructError e)
    | XDangling | XPanic | XFuel => False
    end.
Proof.
  intros E T P PErr parse ps hirs ev clock W Hp Hev. assert (Hw : Forall wf_hir hirs) by (clear - W Hp; induction Hp as [|x h l hs Hx Hl IH]; constructor; auto; eapply W; eauto).
  pose proof (x_build_ok ev hirs (map snd ps) clock Hev Hw) as G. pose proof (parsed_all parse ps hirs Hp) as Ha. destruct (tnfa_of hirs) as [t|e|] eqn:Et; [| |destruct G].
  - destruct G as (F & HF). exists F. intros fuel Hf. destruct (HF fuel Hf) as (env & r & m & A & B & C & D1 & D2 & D3). rewrite C. split; [exists (bx_clock m); destruct m; simpl in *; subst; reflexivity|]. exists env. split; auto. split; auto. unfold build. rewrite split_map, Ha, Et. rewrite D3. reflexivity.
  - exists 0. intros fuel _. destruct (G fuel) as (m & A & B & C). rewrite A. split; [exists (bx_clock m); destruct m; simpl in *; subst; reflexivity|]. intros env. unfold build. rewrite split_map, Ha, Et. reflexivity.
Qed.
Print Assumptions C85_pointers.

(** So what is known about tokenizers holds of this one: for example its tokens are those of C56. *)
Theorem C85_tokens : forall E T P PErr (parse : P -> hir + PErr) (patterns : list (P * (list N -> list T -> E))) hirs ev clock,
  parses_wf parse -> parsed parse patterns hirs -> env_fine ev -> honest (ev_min ev) -> (forall h, In h hirs -> ~ matches (actual h) []) ->
  exists F, forall fuel t ws m, F <= fuel -> x_build ev fuel hirs (map snd patterns) (no_boxes clock) = XOk (t, ws) m ->
  forall f input fuel', length input < fuel' ->
  exists toks es, munch (first_of (length hirs) (actual_lang hirs)) f input toks /\ tok_collect fuel' t f (tokenize_with input) = Ok es /\
    Forall2 (fun e x => exists p m, nth_error patterns (fst x) = Some (p, m) /\ e = m (map f (snd x)) (snd x)) es toks.
Proof.
  intros E T P PErr parse ps hirs ev clock W Hp Hev Hh Hn. destruct (C85_pointers E T P PErr parse ps hirs ev clock W Hp Hev) as (F & HF). exists F. intros fuel t ws m Hf X. specialize (HF fuel Hf). rewrite X in HF. destruct HF as (_ & env & A & B & C).
  eapply C56_tokens; eauto.
Qed.
Print Assumptions C85_tokens.

(** *** Allocators and hash tables *)
(** addresses above all others; or with gaps, and every iteration backwards *)
Definition env_up : box_env := mk_box_env above (fun _ _ l => l) (fun l => l) (fun _ l => l) plain_min.
Definition env_hop : box_env := mk_box_env hop (fun _ _ l => rev l) (fun l => rev l) (fun _ l => rev l) rev_min.
(** the lowest address that is free *)
Definition low (_ : nat) (l : list nat) : nat := match find (fun a => negb (mem a l)) (seq 0 (S (length l))) with Some a => a | None => S (list_sum l) end.
Definition env_low : box_env := mk_box_env low (fun a _ l => if Nat.even a then l else rev l) (fun l => l) (fun it l => if Nat.even it then rev l else l) plain_min.
Lemma low_allocator : allocator low.
Proof.
  intros t l H. unfold low in H. destruct (find _ _) as [a|] eqn:E.
  - apply find_some in E as [_ E]. apply Bool.negb_true_iff in E. apply mem_nIn in E. auto.
  - clear E. assert (G : forall a (l : list nat), In a l -> a <= list_sum l) by (intros a l0; induction l0 as [|x l0 IH]; simpl; [tauto|]; intros [->|Hi]; [lia|specialize (IH Hi); lia]). apply G in H. lia.
Qed.
Lemma up_fine : env_fine env_up. Proof. split; simpl; intros; auto; [apply above_allocator|apply plain_ok]. Qed.
Lemma hop_fine : env_fine env_hop. Proof. split; simpl; intros; try (apply Permutation_sym, Permutation_rev); [apply hop_allocator|apply rev_ok]. Qed.
Lemma low_fine : env_fine env_low.
Proof. split; simpl; intros; auto; [apply low_allocator|destruct (Nat.even a); auto; apply Permutation_sym, Permutation_rev|destruct (Nat.even it); auto; apply Permutation_sym, Permutation_rev|apply plain_ok]. Qed.

(** numbers of states, edges, end states, conflicts reported and boxes left *)
Definition shape {E T} (r : xres (tokenizer E T * list end_conflict)) : option (nat * nat * nat * nat * nat) :=
  match r with XOk (t, ws) m => Some (length (tk_goto t), list_sum (map (@length _) (tk_goto t)), length (tk_end t), length ws, length (used m)) | _ => None end.
Example C85_example : parses_wf (parse_in demo_hirs) /\ parsed (parse_in demo_hirs) (tagged 4) demo_hirs /\ env_fine env_up /\ env_fine env_hop /\ env_fine env_low /\ honest (ev_min env_up) /\
  shape (x_build env_up 100 demo_hirs (map snd (tagged 4)) (no_boxes 0)) = Some (6, 11, 5, 1, 0) /\
  shape (x_build env_hop 100 demo_hirs (map snd (tagged 4)) (no_boxes 7)) = Some (6, 11, 5, 1, 0) /\
  shape (x_build env_low 100 demo_hirs (map snd (tagged 4)) (no_boxes 3)) = Some (6, 11, 5, 1, 0) /\
  (exists m, x_build env_hop 100 (demo_hirs ++ [HConcat [HLitU 97; HAnchor]]) (map snd (tagged 5)) (no_boxes 0) = XErr EAnchor m /\ used m = []).
Proof.
  split; [intros p h; apply parse_in_wf, demo_wf|]. split; [apply demo_parsed|]. split; [apply up_fine|]. split; [apply hop_fine|]. split; [apply low_fine|]. split; [exact (proj2 plain_ok)|].
  split; [vm_compute; reflexivity|]. split; [vm_compute; reflexivity|]. split; [vm_compute; reflexivity|]. eexists. split; [vm_compute; reflexivity|reflexivity].
Qed.
Example C85_tokens_example : (forall h, In h demo_hirs -> ~ matches (actual h) []) /\
  match x_build env_up 100 demo_hirs (map snd (tagged 4)) (no_boxes 0) with
  | XOk (t, _) _ => exists es, tok_collect 11 t snd (tokenize_with (numbered demo_text)) = Ok es /\ map (fun e => fst (fst e)) es = [0; 3; 1; 3; 2]
  | _ => False
  end.
Proof. split; [apply C56_tokens_example|]. vm_compute. eexists. split; reflexivity. Qed.

(** *** What the model notices *)
(** the NFA used after its boxes are gone; a box of the automaton freed twice; a box that is not freed *)
Example C85_notices :
  (xdo t <- x_tnfa_of env_up [h_if; h_num]; xdo _ <- xiter free_n (bn_vec t); x_dfa_of env_up 100 t) (no_boxes 0) = XDangling /\
  (xdo t <- x_tnfa_of env_up [h_if]; xdo (d, _) <- x_dfa_of env_up 100 t; xdo _ <- xiter free_d (bd_vec d); xdo _ <- xiter free_d (bd_vec d); xret tt) (no_boxes 0) = XDangling /\
  (exists t m, (xdo t <- x_tnfa_of env_up [h_if]; xret (bn_begin t)) (no_boxes 0) = XOk t m /\ length (used m) = 5).
Proof. split; [vm_compute; reflexivity|]. split; [vm_compute; reflexivity|]. eexists _, _. split; [vm_compute; reflexivity|]. reflexivity. Qed.

(** *** An allocator that hands out an address in use: the result is wrong *)
Definition env_same : box_env := mk_box_env (fun _ _ => 1) (fun _ _ l => l) (fun l => l) (fun _ l => l) plain_min.
Theorem C85_allocator_needed : ~ env_fine env_same /\ x_build env_same 100 demo_hirs (map snd (tagged 4)) (no_boxes 0) = XDangling.
Proof. split; [intros [H _ _ _ _]; apply (H 0 [1]); simpl; auto|]. vm_compute. reflexivity. Qed.
Print Assumptions C85_allocator_needed.
