(** * Parsing takes linear time.  C50.
    The bound counts the turns of the loop of [parse] (iter.rs 51-171): a turn shifts one token, makes one
    reduction, accepts, or handles an error. *)
From Coq Require Import List Arith Lia.
From Verif Require Import Lib Grammar LrModel LrSpec LrSets LrStates LrNew LrTop ParseModel Trees ParseSpec ParseInv ParseComplete GramFacts ParseTerm ParseTop ParseMore ParseLin ParseExamples PropParse.
Import ListNotations.

Lemma calls_bound {N T E} (tix : T -> nat) (P : parser N T E) F : forall s, loop (parse_step tix P) F s <> OutOfFuel ->
  forall fuel, length (calls tix P fuel s) <= F.
Proof.
  induction F as [|F IH]; intros s H fuel; [exfalso; apply H; reflexivity|]. destruct fuel as [|fuel]; simpl in *; [lia|].
  rewrite app_length. destruct (parse_step tix P s) as [s'|r].
  - specialize (IH s' H fuel). destruct (step_call tix P s); simpl; lia.
  - destruct (step_call tix P s); simpl; lia.
Qed.

(** C50: for a productive grammar without warnings there is a constant, the same for all reducers, token and
    value types and hash seeds, such that [parse] on [n] tokens takes at most that constant times [n + 1] turns, and
    calls reducers at most so often.  With error rules this holds for the inputs that are in the language. *)
Theorem C50_linear_time : forall N T E (nix : N -> nat) (tix : T -> nat) e (s : syntax N T E) P,
  api_syntax nix tix s -> makes e s P [] -> productive (gram s) ->
  exists C, forall N' T' E' (nix' : N' -> nat) (tix' : T' -> nat) e' (s' : syntax N' T' E') P',
    gram s' = gram s -> sx_start s' = sx_start s -> api_syntax nix' tix' s' -> makes e' s' P' [] ->
    forall w, error_free s' \/ derivable tix' s' w ->
      parse tix' P' (C * (length w + 1)) w <> OutOfFuel /\
      forall fuel, length (parse_calls tix' P' fuel w) <= C * (length w + 1).
Proof.
  intros N T E nix tix e s P Ha Hmk Hp. destruct (makes_made nix tix e s P [] Ha Hmk) as [ss Hm].
  destruct (burst (gram s) (sx_start s) ss (pr_tab P) (md_can _ _ _ _ Hm) (rstep_wf _ _ _ (md_fresh _ _ _ _ Hm) (cf_of s P [] ss Hm eq_refl) Hp)) as (M & C & HB).
  exists (M + C + 1). intros N' T' E' nix' tix' e' s' P' Eg Es Ha' Hmk' w Hw.
  destruct (makes_made nix' tix' e' s' P' [] Ha' Hmk') as [ss' Hm'].
  assert (ss' = ss) by (pose proof (md_ss _ _ _ _ Hm) as H1; pose proof (md_ss _ _ _ _ Hm') as H2; rewrite Eg in H2; congruence). subst ss'.
  assert (G : parse_full tix' P' ((M + C + 1) * S (length w)) w <> OutOfFuel).
  { apply (turns tix' (gram s') (sx_start s') ss P' (md_fresh _ _ _ _ Hm') (md_eoi _ _ _ _ Hm') (md_can _ _ _ _ Hm') (md_len _ _ _ _ Hm')) with (M := M) (C := C).
    - rewrite Eg, Es. exact HB.
    - destruct Hw as [Hw|Hw]; [left; exact Hw|right]. split; [apply (cf_of s' P' [] ss Hm' eq_refl)|exact Hw]. }
  replace (length w + 1) with (S (length w)) by lia. split.
  - unfold parse. intros H. apply G. destruct (parse_full tix' P' _ w) as [x| |]; simpl in H; [discriminate H|discriminate H|reflexivity].
  - intros fuel. apply calls_bound. exact G.
Qed.
Print Assumptions C50_linear_time.
Example C50_example : exists C, forall w, parse tkix P_expr (C * (length w + 1)) w <> OutOfFuel.
Proof.
  destruct (C50_linear_time _ _ _ nix0 tkix env0 expr P_expr (expr_api _) expr_makes (expr_productive _)) as [C HC]. exists C. intros w.
  apply (HC _ _ _ nix0 tkix env0 expr P_expr eq_refl eq_refl (expr_api _) expr_makes w). left. apply (expr_free _).
Qed.
