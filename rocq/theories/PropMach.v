(** * Properties C43, C44: the exact behaviour of [parse], with recovery; laziness *)
From Coq Require Import List Arith Lia Bool.
From Verif Require Import Lib Grammar LrModel LrSpec LrTop ParseModel Trees ParseSpec ParseTop MachSpec MachProofs ParseExamples.
Import ListNotations.

(** ** C43: [parse] agrees with the reference semantics in MachSpec.v, for every grammar (with or without
    conflicts and error rules), all reducers and every input: it returns exactly what the abstract parser
    returns and leaves the same tokens in the iterator, panics exactly when it does, and runs forever exactly
    when it does. *)
Theorem C43_reference_semantics : forall N T E (nix : N -> nat) (tix : T -> nat) e (s : syntax N T E) P ws,
  api_syntax nix tix s -> makes e s P ws ->
  exists ss, ~ In ss (nonterminals (gram s)) /\ forall w,
    (forall o rest, (exists fuel, parse_full tix P fuel w = Ok (o, rest)) <-> mach_ends tix (gram s) (sx_start s) ss (gens s) w (Ok (o, rest))) /\
    (panics tix P w <-> mach_ends tix (gram s) (sx_start s) ss (gens s) w Panic) /\
    (diverges tix P w <-> mach_forever tix (gram s) (sx_start s) ss (gens s) w).
Proof.
  intros N T E nix tix e s P ws Ha Hmk. destruct (makes_made nix tix e s P ws Ha Hmk) as [ss Hm]. exists ss. split; [apply Hm|].
  intros w. destruct (mach_ok tix s P ws ss w Hm) as [H1 H2]. split; [|split].
  - intros o rest. apply H1. discriminate.
  - rewrite panics_full. apply H1. discriminate.
  - rewrite diverges_full. exact H2.
Qed.
Print Assumptions C43_reference_semantics.

(** The abstract parser is deterministic, so that these are complete descriptions. *)
Theorem C43_deterministic : forall N T E (tix : T -> nat) rules start ss (gs : list (reducer N T E)) w c,
  (forall c1 c2, mstep tix rules start ss gs w c c1 -> mstep tix rules start ss gs w c c2 -> c1 = c2) /\
  (forall r1 r2, mend tix rules start ss gs w c r1 -> mend tix rules start ss gs w c r2 -> r1 = r2) /\
  (forall c1 r, mstep tix rules start ss gs w c c1 -> mend tix rules start ss gs w c r -> False).
Proof.
  intros N T E tix rules start ss gs w c. split; [|split].
  - intros c1 c2. apply mach_step_det.
  - intros r1 r2. apply mach_end_det.
  - intros c1 r. apply mach_end_stuck.
Qed.
Print Assumptions C43_deterministic.

(** on an input with errors: [w_rec] has a faulty second statement; the abstract parser recovers *)
Example C43_example : api_syntax nix0 tkix stmts /\ makes env0 stmts P_stmts [] /\
  (exists ss, mach_ends tkix (gram stmts) (sx_start stmts) ss (gens stmts) w_rec (Ok (ROk 406, []))) /\
  parse_errors tkix P_stmts 100 w_rec <> [].
Proof.
  split; [apply stmts_api|]. split; [apply stmts_makes|]. split.
  - destruct (C43_reference_semantics _ _ _ nix0 tkix env0 stmts P_stmts [] stmts_api stmts_makes) as (ss & _ & H). exists ss. apply H. exists 100. vm_compute. reflexivity.
  - vm_compute. discriminate.
Qed.

(** ** C44: the result does not depend on tokens that were not taken from the iterator *)
Theorem C44_lazy : forall N T E (tix : T -> nat) (P : parser N T E) fuel u z o, z <> [] ->
  parse_full tix P fuel (u ++ z) = Ok (o, z) -> forall z', parse_full tix P fuel (u ++ z') = Ok (o, z').
Proof.
  intros N T E tix P fuel u z o Hz H z'. unfold parse_full in *. exact (lazy_loop tix P fuel (ps_init P (u ++ z)) o z u z' H Hz eq_refl).
Qed.
Print Assumptions C44_lazy.
(** and it leaves a final piece of the input in the iterator *)
Theorem C44_rest : forall N T E (nix : N -> nat) (tix : T -> nat) e (s : syntax N T E) P ws w fuel o rest,
  api_syntax nix tix s -> makes e s P ws -> parse_full tix P fuel w = Ok (o, rest) -> exists u, w = u ++ rest.
Proof.
  intros N T E nix tix e s P ws w fuel o rest Ha Hmk H. destruct (C43_reference_semantics _ _ _ nix tix e s P ws Ha Hmk) as (ss & _ & Hr).
  destruct (Hr w) as [H1 _]. destruct (proj1 (H1 o rest) (ex_intro _ fuel H)) as (n & c & _ & He).
  assert (G : forall k, exists u, w = u ++ skipn k w) by (intros k; exists (firstn k w); symmetry; apply firstn_skipn).
  inversion He; apply G.
Qed.
Print Assumptions C44_rest.
Example C44_example : exists fuel, parse_full tkix P_expr fuel ([(kId, 1); (kPlus, 0); (kPlus, 0)] ++ [(kId, 2)]) = Ok (RNotFound, [(kId, 2)]).
Proof. exists 100. vm_compute. reflexivity. Qed.
