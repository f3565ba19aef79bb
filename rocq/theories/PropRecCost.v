(** * What error recovery costs.  C71.
    A turn is one turn of the loop of [parse] (iter.rs 51-171).  Every error that is detected may put tokens back, and
    they are read again. *)
From Coq Require Import List Arith Lia Bool Permutation.
From Verif Require Import Lib Grammar LrModel LrSpec LrSets LrStates LrNew LrTop ParseModel Trees ParseSpec ParseInv ParseComplete GramFacts ParseTerm ParseTop ParseMore ParseLin LoopSpec ParseLoop ParseHash ParseExamples PropParse PropLr RecFamily.
Import ListNotations.

Section Cost.
  Context {N T E : Type} (tix : T -> nat).
  Variables (s : syntax N T E) (P : parser N T E) (ws : list warning) (ss : nat) (w : list T).
  Hypothesis Hm : made s P ws ss.
  Variables M C : nat.
  Hypothesis Hburst : forall t n g g', above (gram s) (sx_start s) ss t [] n g g' -> n + M * length g' <= M * length g + C.
  Notation n := (length w).
  Notation above := (above (gram s) (sx_start s) ss).

  Lemma cost fuel : forall st g ts pos, inv_at tix (gram s) (sx_start s) ss P w st g ts pos ->
    loop (parse_step tix P) fuel st = OutOfFuel ->
    exists j g', above (la_at tix w pos) [] j g g' /\
      fuel <= j + M * length g' + (n - pos) * (M + C + 1) + length (errors tix P fuel st) * ((n + 1) * (M + C + 1)).
  Proof.
    induction fuel as [|fuel IH]; intros st g ts pos Hinv Hf.
    { exists 0, g. split; [apply above_none|apply Nat.le_0_l]. }
    simpl in Hf. cbn [errors]. destruct (cases tix s P ws ss w Hm _ _ _ _ Hinv) as (d & Hd & Hc). rewrite (err_spec tix s P ws ss w Hm _ _ _ _ _ Hinv Hd).
    destruct d as [[q|k|]|]; cbn [step_case] in Hc.
    - destruct Hc as (_ & Hlt & s' & Hs & Hi). rewrite Hs in *. destruct (IH _ _ _ _ Hi Hf) as (j & g' & Ha & Hle). exists 0, g. split; [apply above_none|].
      apply Hburst in Ha. rewrite app_length in Ha. simpl length in *. replace (n - pos) with (S (n - S pos)) by lia. cbn [app]. nia.
    - destruct Hc as [(r & _ & _ & Hs & _)|(r & dd & ts1 & ts2 & args & gen & Hr & Eg & _ & _ & _ & _ & _ & _ & _ & Hc)]; [rewrite Hs in Hf; discriminate|].
      destruct (gen args) as [v|e|]; [|destruct Hc as [it Hs]; rewrite Hs in Hf; discriminate|rewrite Hc in Hf; discriminate].
      destruct Hc as (s' & Hs & Hi). rewrite Hs in *. destruct (IH _ _ _ _ Hi Hf) as (j & g' & Ha & Hle). exists (S j), g'. split; [|cbn [app]; lia].
      subst g. apply (above_one _ _ _ _ _ j dd k r g'); auto.
    - destruct Hc as (_ & _ & _ & t & v & _ & _ & Hs). rewrite Hs in Hf. discriminate.
    - destruct Hc as [_ [(it & Hs & _)|(s' & Hs & _ & g2 & ts' & ts2 & lo & hi & pos' & Ets & _ & _ & _ & _ & Hi)]]; [rewrite Hs in Hf; discriminate|]. rewrite Hs in *.
      destruct (IH _ _ _ _ Hi Hf) as (j & g' & Ha & Hle). exists 0, g. split; [apply above_none|].
      apply Hburst in Ha. rewrite app_length in Ha. simpl length in *.
      pose proof (inv_stk _ _ _ _ _ _ _ _ _ _ Hinv) as L1. apply stk_len in L1; [|exact (md_len _ _ _ _ Hm)].
      pose proof (inv_stk _ _ _ _ _ _ _ _ _ _ Hi) as L2. apply stk_len in L2; [|exact (md_len _ _ _ _ Hm)].
      rewrite !app_length in L2. rewrite Ets, app_length in L1. simpl length in L2.
      assert (length g2 <= length g) by lia.
      set (e := length (errors tix P fuel s')) in *. clearbody e. cbn [app length].
      assert ((n - pos') * (M + C + 1) <= n * (M + C + 1)) by (apply Nat.mul_le_mono_r; lia).
      assert (M * length g2 <= M * length g) by (apply Nat.mul_le_mono_l; lia).
      nia.
  Qed.
End Cost.

(** C71: there is a constant that depends only on the grammar such that [parse], as long as it has not returned, has
    made at most that constant times the length of the input times the number of detected errors (each plus one) turns *)
Theorem C71_cost_per_error : forall N T E (nix : N -> nat) (tix : T -> nat) e (s : syntax N T E) P ws,
  api_syntax nix tix s -> makes e s P ws -> ws = [] /\ productive (gram s) \/ loop_free (gram s) (sx_start s) ->
  exists C, forall N' T' E' (nix' : N' -> nat) (tix' : T' -> nat) e' (s' : syntax N' T' E') P' ws',
    gram s' = gram s -> sx_start s' = sx_start s -> api_syntax nix' tix' s' -> makes e' s' P' ws' ->
    forall w fuel, parse tix' P' fuel w = OutOfFuel ->
      fuel <= C * (length w + 1) * (length (parse_errors tix' P' fuel w) + 1).
Proof.
  intros N T E nix tix e s P ws Ha Hmk Hcond. destruct (makes_made nix tix e s P ws Ha Hmk) as [ss Hm].
  assert (Hwf : forall t, well_founded (rstep (gram s) (sx_start s) ss t)).
  { destruct Hcond as [[-> Hp]|Hlf]; [exact (rstep_wf _ _ _ (md_fresh _ _ _ _ Hm) (cf_of s P [] ss Hm eq_refl) Hp)|].
    exact (loop_free_wf _ _ _ (md_fresh _ _ _ _ Hm) Hlf). }
  destruct (burst (gram s) (sx_start s) ss (pr_tab P) (md_can _ _ _ _ Hm) Hwf) as (M & C & HB).
  exists (M + C + 1). intros N' T' E' nix' tix' e' s' P' ws' Eg Es Ha' Hmk' w fuel Hf.
  destruct (makes_made nix' tix' e' s' P' ws' Ha' Hmk') as [ss' Hm'].
  assert (ss' = ss) by (pose proof (md_ss _ _ _ _ Hm) as H1; pose proof (md_ss _ _ _ _ Hm') as H2; rewrite Eg in H2; congruence). subst ss'.
  assert (Hf' : loop (parse_step tix' P') fuel (ps_init P' w) = OutOfFuel).
  { unfold parse, parse_full in Hf. destruct (loop _ fuel _); [discriminate|discriminate|reflexivity]. }
  rewrite <- Eg, <- Es in HB.
  destruct (cost tix' s' P' ws' ss w Hm' M C HB fuel (ps_init P' w) [] [] 0 (at_init tix' s' P' ss w) Hf') as (j & g' & H1 & H2).
  apply HB in H1. simpl length in H1. unfold parse_errors. set (x := length (errors tix' P' fuel (ps_init P' w))) in *. clearbody x. nia.
Qed.
Print Assumptions C71_cost_per_error.

(** The hypotheses, and a run that has not returned after four detected errors on an input of six tokens *)
Lemma lists_api : api_syntax nix0 tkix lists.
Proof. raw. Qed.
Lemma lists_makes : makes env0 lists P_lists [].
Proof. mk. Qed.
Lemma lists_productive : productive (gram lists).
Proof.
  assert (HE : der (gram lists) (NT 0) [TSym 3]) by (apply single_der; simpl; auto 10).
  assert (HL : der (gram lists) (NT 1) [TSym 3]).
  { apply (der_rule _ (mk_rule 1 [NT 0])); [simpl; auto 10|]. change [TSym 3] with ([TSym 3] ++ []). constructor; [auto|constructor]. }
  intros r X Hr HX. simpl in Hr. repeat destruct Hr as [<-|Hr]; try destruct Hr; simpl in HX; repeat destruct HX as [<-|HX]; try destruct HX; eauto; eexists; constructor.
Qed.
Lemma lists_apart : errors_apart lists.
Proof.
  apply token_apart. intros r Hr a b E0. simpl in Hr.
  repeat destruct Hr as [<-|Hr]; try destruct Hr; simpl in E0; destruct a as [|x1 [|x2 [|x3 [|x4 a]]]]; simpl in E0; try discriminate; injection E0; intros; subst; try discriminate; eauto.
Qed.
Example C71_cost_example : api_syntax nix0 tkix lists /\ makes env0 lists P_lists [] /\ productive (gram lists) /\
  parse tkix P_lists 16 (deep 1) = OutOfFuel /\ length (parse_errors tkix P_lists 16 (deep 1)) = 4 /\ length (deep 1) = 6.
Proof. split; [apply lists_api|]. split; [apply lists_makes|]. split; [apply lists_productive|]. repeat split; vm_compute; reflexivity. Qed.

(** a run makes at most one call in each turn *)
Lemma calls_le {N T E} (tix : T -> nat) (P : parser N T E) fuel : forall st fuel', loop (parse_step tix P) fuel st <> OutOfFuel -> length (calls tix P fuel' st) <= fuel.
Proof.
  induction fuel as [|fuel IH]; intros st fuel' H; [simpl in H; congruence|]. destruct fuel' as [|fuel']; [apply Nat.le_0_l|].
  cbn [calls]. simpl in H. rewrite app_length. assert (L : length match step_call tix P st with Some c => [c] | None => [] end <= 1) by (destruct (step_call tix P st); simpl; lia).
  destruct (parse_step tix P st) as [st'|r]; [specialize (IH st' fuel' H); lia|simpl; lia].
Qed.
(** C71: the number of turns is not bounded by any polynomial in the length of the input.  The grammar of the witness has
    no conflict, every symbol of it is productive, and it derives no two adjacent error symbols.  An input of [5 * n + 6]
    tokens is accepted after [3 * 2 ^ (n + 1) - 1] calls to reducers and not after fewer turns, with every hash order. *)
Theorem C71_exponential : exists s : stx, api_syntax nix0 tkix s /\ makes env0 s P_lists [] /\ productive (gram s) /\ errors_apart s /\
  forall e P ws, makes e s P ws -> forall n, exists w fuel, length w = 5 * n + 6 /\ parse tkix P fuel w = Ok (ROk 0) /\
    length (parse_calls tkix P fuel w) = 3 * 2 ^ (n + 1) - 1 /\
    forall fuel', fuel' < 3 * 2 ^ (n + 1) - 1 -> parse tkix P fuel' w = OutOfFuel.
Proof.
  exists lists. split; [apply lists_api|]. split; [apply lists_makes|]. split; [apply lists_productive|]. split; [apply lists_apart|].
  intros e P ws Hm n. destruct (deep_parse n) as (fuel & H1 & H2). exists (deep (S n)), fuel.
  destruct (C32_order_independent _ _ _ _ _ _ _ _ _ _ _ _ lists_api Hm lists_makes) as [_ H]. destruct (H fuel (deep (S n))) as (E1 & E2 & _).
  split; [rewrite deep_len; lia|]. rewrite Nat.add_1_r, <- H2. split; [unfold parse; rewrite E1, H1; reflexivity|]. split; [rewrite E2; reflexivity|].
  intros fuel' Hlt. destruct (parse tkix P fuel' (deep (S n))) eqn:Ep; auto.
  all: assert (Hn : loop (parse_step tkix P) fuel' (ps_init P (deep (S n))) <> OutOfFuel) by (intros E0; unfold parse, parse_full in Ep; rewrite E0 in Ep; discriminate);
    apply calls_le with (fuel' := fuel) in Hn; fold (parse_calls tkix P fuel (deep (S n))) in Hn; rewrite E2 in Hn; lia.
Qed.
Print Assumptions C71_exponential.
