(** * Property C69: exactly when [parse] panics *)
From Coq Require Import List Arith Lia Bool Sorted.
From Verif Require Import Lib Grammar LrModel LrSpec LrTop ParseModel Trees ParseSpec ParseInv ParseComplete GramFacts ParseTerm ParseTop ParseMore ParseExamples PropParse.
Import ListNotations.

(** the rule by which a turn reduces, if it does: what the action table has for the state and the
    lookahead (iter.rs 53-60, 73) *)
Definition step_reduces {N T E} (tix : T -> nat) (P : parser N T E) (s : pstate N T) : option nat :=
  match ps_buf (ps_read tix s) with
  | (t, _) :: _ => match act (pr_tab P) (ps_state (ps_read tix s)) t with Ok (Some (Reduce k)) => Some k | _ => None end
  | [] => None
  end.
(** at some turn of the parser on [w] it reduces by a rule that has an error symbol *)
Definition reduces_an_error {N T E} (tix : T -> nat) (s : syntax N T E) (P : parser N T E) (w : list T) : Prop :=
  exists st k r, turns tix P w st /\ step_reduces tix P st = Some k /\ nth_error (gram s) k = Some r /\ In (TM TErr) (r_rhs r).

Section Panic.
  Context {N T E : Type} (tix : T -> nat).
  Variables (s : syntax N T E) (P : parser N T E) (ws : list warning) (ss : nat) (w : list T).
  Hypothesis Hm : made s P ws ss.
  Notation rules := (gram s).
  Notation start := (sx_start s).
  Notation rs := (augment rules start ss).
  Notation sr := (length rules).
  Notation invat := (inv_at tix rules start ss P w).
  Notation step := (parse_step tix P).

  Lemma reduces_spec st g ts pos d : invat st g ts pos -> decides rs sr (pr_tab P) g (la_at tix w pos) d ->
    step_reduces tix P st = match d with Some (Reduce k) => Some k | _ => None end.
  Proof.
    intros Hinv Hd. unfold step_reduces.
    destruct (read_inv tix rules start ss P w (md_len _ _ _ _ Hm) st g ts pos Hinv) as [H (t & i & buf & Eb & Hla)]. rewrite Eb.
    assert (Et : t = la_at tix w pos).
    { unfold la_at. destruct Hla as [(x & Hx & -> & _)|(-> & _ & -> & _)]; [rewrite Hx; auto|]. rewrite (proj2 (nth_error_None _ _)); auto. }
    subst t. destruct (act_state rules start ss P (md_can _ _ _ _ Hm) g (ps_state (ps_read tix st)) (la_at tix w pos)) as (d' & Ed & Hd').
    { apply (inv_state _ _ _ _ _ _ _ _ _ _ H). }
    rewrite Ed. rewrite (decides_det _ _ _ _ _ _ _ Hd Hd'). reflexivity.
  Qed.

  Lemma panic_ends fuel : forall st g ts pos, turns tix P w st -> invat st g ts pos -> loop step fuel st = Panic ->
    (exists L k args, calls tix P fuel st = L ++ [(k, args)] /\ call (gens s) k args = GPanic) \/ (w = [] /\ reduces_an_error tix s P w).
  Proof.
    induction fuel as [|fuel IH]; intros st g ts pos Ht Hinv Hl; [discriminate|]. cbn [calls loop] in *.
    assert (K : forall st' g' ts' pos', parse_step tix P st = inl st' -> invat st' g' ts' pos' ->
      (exists L k args, match step_call tix P st with Some c => [c] | None => [] end ++ match parse_step tix P st with inl s' => calls tix P fuel s' | inr _ => [] end = L ++ [(k, args)] /\ call (gens s) k args = GPanic) \/
      (w = [] /\ reduces_an_error tix s P w)).
    { intros st' g' ts' pos' Hs Hi. rewrite Hs in Hl |- *. destruct (IH _ _ _ _ (turns_step _ _ _ _ _ Ht Hs) Hi Hl) as [(L & k & args & -> & H)|H]; [left|auto].
      exists (match step_call tix P st with Some c => [c] | None => [] end ++ L), k, args. rewrite app_assoc. auto. }
    destruct (cases tix s P ws ss w Hm _ _ _ _ Hinv) as (d & Hd & Hc). pose proof (reduces_spec _ _ _ _ _ Hinv Hd) as Hr0.
    destruct d as [[q|k|]|]; cbn [step_case] in Hc.
    - destruct Hc as (_ & _ & s' & Hs & Hi). eapply K; eauto.
    - destruct Hd as (_ & _ & Hk & _).
      destruct Hc as [(r & Hr & _ & _ & Hw & Hin)|(r & dd & ts1 & ts2 & args & gen & Hr & _ & _ & Ec & Ets & _ & Htw & Ha & Hg & Hc)].
      { right. split; auto. exists st, k, r. split; auto. split; auto. split; auto. apply (rule_old s ss); auto. }
      assert (Hcall : call (gens s) k args = gen args). { unfold call. rewrite (gens_old s P ws ss Hm k gen Hk Hg). auto. }
      destruct (gen args) as [v|e|] eqn:Eg.
      + destruct Hc as (s' & Hs & Hi). eapply K; eauto.
      + destruct Hc as (it & Hs). rewrite Hs in Hl. discriminate.
      + left. rewrite Ec, Hc. exists [], k, args. split; auto.
    - destruct Hc as (_ & _ & _ & t & v & _ & _ & Hs). rewrite Hs in Hl. discriminate.
    - destruct Hc as (_ & [(it & Hs & _)|(s' & Hs & _ & g' & ts' & ts2 & lo & hi & pos' & _ & _ & _ & _ & _ & Hi)]).
      + rewrite Hs in Hl. discriminate.
      + eapply K; eauto.
  Qed.

  Lemma no_error_args G l ts : twfs tix G [] l ts -> ~ In (TM TErr) l.
  Proof.
    induction 1 as [|X l t ts Hx Hl IH]; intros H; [destruct H|]. destruct H as [->|H]; [|auto]. inversion Hx; subst; simpl in *; lia.
  Qed.

  Lemma error_panics : w = [] -> reduces_an_error tix s P w -> panics tix P w.
  Proof.
    intros Hw (st & k & r & Ht & Hr & Hk & Hin). destruct (turns_inv tix s P ws ss w Hm st Ht) as (g & ts & pos & Hinv).
    destruct (cases tix s P ws ss w Hm _ _ _ _ Hinv) as (d & Hd & Hc). rewrite (reduces_spec _ _ _ _ _ Hinv Hd) in Hr.
    destruct d as [[q|k'|]|]; try discriminate. injection Hr as ->. destruct Hd as (_ & _ & Hsr & _).
    destruct Hc as [(r' & _ & _ & Hs & _)|(r' & dd & ts1 & ts2 & args & gen & Hr' & _ & _ & _ & _ & _ & Htw & _)].
    - apply panics_full. exact (turns_end tix P w st Panic Ht Hs).
    - exfalso. apply (rule_old s ss) in Hr'; auto. assert (r' = r) by congruence. subst r'. subst w. exact (no_error_args _ _ _ Htw Hin).
  Qed.
End Panic.

(** ** C69: [parse] panics exactly when one of the reducers it calls panics, or when the input is empty and
    it reduces by a rule with an error symbol (for which it takes the slice [0..=0] of no tokens, iter.rs 92) *)
Theorem C69_panics_exactly : forall N T E (nix : N -> nat) (tix : T -> nat) e (s : syntax N T E) P ws w,
  api_syntax nix tix s -> makes e s P ws ->
  (panics tix P w <->
    (exists fuel L k args, parse_calls tix P fuel w = L ++ [(k, args)] /\ call (gens s) k args = GPanic) \/
    (w = [] /\ reduces_an_error tix s P w)).
Proof.
  intros N T E nix tix e s P ws w Ha Hmk. destruct (makes_made nix tix e s P ws Ha Hmk) as [ss Hm]. split.
  - intros Hpa. apply panics_full in Hpa as [fuel Hf].
    destruct (panic_ends tix s P ws ss w Hm fuel _ [] [] 0 (turns_init _ _ _) (at_init tix s P ss w) Hf) as [(L & k & args & H)|H]; [left|auto].
    exists fuel, L, k, args. exact H.
  - intros [(fuel & L & k & args & H1 & H2)|[H1 H2]]; [|apply (error_panics tix s P ws ss w Hm); auto].
    apply panics_full. exists fuel. apply (calls_panic tix P k args).
    + rewrite (md_gens _ _ _ _ Hm). unfold call in *. destruct (nth_error (gens s) k) as [g|] eqn:Eg.
      * rewrite nth_error_app1 by (apply nth_error_Some; congruence). rewrite Eg. auto.
      * apply nth_error_None in Eg. rewrite nth_error_app2 by auto. destruct (k - length (gens s)) as [|[|n]]; auto.
    + fold (parse_calls tix P fuel w). rewrite H1. apply in_or_app. simpl. auto.
Qed.
Print Assumptions C69_panics_exactly.

(** so [parse] does not panic unless a reducer does, on any input, if every rule with an error symbol also has
    a token, or a nonterminal that does not derive the empty sequence *)
Definition errors_anchored {N T E} (s : syntax N T E) : Prop :=
  forall r, In r (gram s) -> In (TM TErr) (r_rhs r) ->
    exists X, In X (r_rhs r) /\ X <> TM TErr /\ ~ der (gram s) X [].

Section Anchored.
  Context {N T E : Type} (tix : T -> nat).
  Variables (s : syntax N T E) (P : parser N T E) (ws : list warning) (ss : nat).
  Hypothesis Hm : made s P ws ss.
  Notation rules := (gram s).
  Notation start := (sx_start s).
  Notation rs := (augment rules start ss).

  Lemma twf_empty G : (forall X t, twf tix G ([] : list T) X t -> der G X []) /\ (forall l ts, twfs tix G ([] : list T) l ts -> ders G l []).
  Proof.
    apply (twf_twfs_ind T tix G [] (fun X _ => der G X []) (fun l _ => ders G l [])).
    - intros i x H. destruct i; discriminate.
    - intros lo hi _ H. simpl in H. lia.
    - intros k r ts H _ IH. constructor; auto. eapply nth_error_In; eauto.
    - constructor.
    - intros X l t ts _ H1 _ H2. change (@nil term) with (@nil term ++ []). constructor; auto.
  Qed.

  Lemma stack_empty n st g ts : stk tix rules start ss P [] n st g ts -> forall X, In X g -> X = TM TErr \/ der rs X [].
  Proof.
    induction 1 as [|st g ts q e X t _ IH _ He _]; intros Y HY; [destruct HY|]. apply in_app_or in HY as [HY|[->|[]]]; [auto|].
    destruct e as [v i|k i|lo hi|]; simpl in He.
    - right. destruct He as (_ & Ht & _). exact (proj1 (twf_empty rs) _ _ Ht).
    - destruct He as (_ & _ & _ & x & Hx & _). destruct i; discriminate.
    - left. tauto.
    - destruct He.
  Qed.

  Lemma anchored_no_error : errors_anchored s -> ~ reduces_an_error tix s P [].
  Proof.
    intros Han (st & k & r & Ht & Hr & Hk & Hin). destruct (turns_inv tix s P ws ss [] Hm st Ht) as (g & ts & pos & Hinv).
    destruct (cases tix s P ws ss [] Hm _ _ _ _ Hinv) as (d & Hd & Hc). rewrite (reduces_spec tix s P ws ss [] Hm _ _ _ _ _ Hinv Hd) in Hr.
    destruct d as [[q|k'|]|]; try discriminate. injection Hr as ->. destruct Hd as (_ & _ & Hsr & Hcomp & _).
    destruct (complete_split rs (length rules) g k _ (ex_intro _ _ (augment_start rules start ss)) Hcomp Hsr) as (r' & dd & Hr' & -> & _).
    apply (rule_old s ss) in Hr'; auto. assert (r' = r) by congruence. subst r'. pose proof (nth_error_In _ _ Hk) as Hr.
    destruct (Han r Hr Hin) as (X & HX & Hne & Hd). destruct (stack_empty _ _ _ _ (inv_stk _ _ _ _ _ _ _ _ _ _ Hinv) X) as [H|H]; [apply in_or_app; auto|contradiction|].
    apply Hd. apply (proj1 (der_aug0 rules start ss (md_fresh _ _ _ _ Hm)) _ _ H). intros ->. apply (ss_rhs rules ss (md_fresh _ _ _ _ Hm) r Hr HX).
  Qed.
End Anchored.

Corollary C69_no_panic_anchored : forall N T E (nix : N -> nat) (tix : T -> nat) e (s : syntax N T E) P ws w,
  api_syntax nix tix s -> makes e s P ws -> errors_anchored s ->
  (panics tix P w <-> exists fuel L k args, parse_calls tix P fuel w = L ++ [(k, args)] /\ call (gens s) k args = GPanic).
Proof.
  intros N T E nix tix e s P ws w Ha Hmk Han. rewrite (C69_panics_exactly N T E nix tix e s P ws w Ha Hmk). split; [|auto].
  intros [H|[-> H]]; [exact H|]. destruct (makes_made nix tix e s P ws Ha Hmk) as [ss Hm]. exfalso. exact (anchored_no_error tix s P ws ss Hm Han H).
Qed.
Print Assumptions C69_no_panic_anchored.


(** both cases occur: [S ::= error] panics on the empty input; the statements of ParseExamples.v have an error
    rule with a semicolon, and do not *)
Example C69_example : api_syntax nix0 tkix g_err /\ makes env0 g_err (fst (build env0 g_err)) [] /\ reduces_an_error tkix g_err (fst (build env0 g_err)) [] /\
  api_syntax nix0 tkix stmts /\ makes env0 stmts P_stmts [] /\ errors_anchored stmts /\ ~ error_free stmts.
Proof.
  split; [raw|]. split; [mk|]. split.
  { eexists _, 0, _. split; [eapply turns_step; [apply turns_init|vm_compute; reflexivity]|]. split; [vm_compute; reflexivity|]. split; [vm_compute; reflexivity|]. vm_compute. auto. }
  split; [apply stmts_api|]. split; [apply stmts_makes|]. split.
  - intros r Hr Hin. exists (TM (TSym kSemi)). vm_compute in Hr. repeat destruct Hr as [<-|Hr]; try (exfalso; vm_compute in Hin; repeat destruct Hin as [Hin|Hin]; discriminate || contradiction).
    split; [vm_compute; auto|]. split; [discriminate|]. intros H. inversion H.
  - intros H. apply (H (mk_rule nSt [TM TErr; TM (TSym kSemi)])); vm_compute; auto 10.
Qed.
