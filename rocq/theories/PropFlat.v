(** * Property C97: how expressions without levels of precedence are read *)
From Coq Require Import List Arith Lia Bool ZArith.
From Verif Require Import Lib Grammar LrModel LrSpec LrTop ParseModel Trees ParseSpec ParseInv ParseTop ParseMore ParseExamples PropParse PropLr PropRecover ChoiceSpec PropChoice StmtSpec PropStmt OpSpec PropOp NestSpec PropNest AmbigSpec PropAmbig FlatSpec FlatProofs.
Import ListNotations.

Lemma flat_api {N T E} (nix : N -> nat) (tix : T -> nat) (cs : list (construct * reducer N T E)) : api_syntax nix tix (flat_syntax cs).
Proof. unfold api_syntax, flat_syntax. simpl. apply Forall_forall. intros r Hr. apply in_map_iff in Hr as (p & <- & _). constructor. Qed.
Lemma flat_errors {N T E} (cs : list (construct * reducer N T E)) : error_free (flat_syntax cs).
Proof.
  intros r Hr H. apply gram_in in Hr as (p & _ & ->). simpl in H. unfold rhs, pre, post in H. apply in_app_or in H as [H|[H|H]]; [destruct (left_operand (fst p)); simpl in H; intuition discriminate|discriminate|].
  apply in_app_or in H as [H|H]; [|destruct (right_operand (fst p)); simpl in H; intuition discriminate]. unfold mids in H. apply in_flat_map in H as (m & _ & [H|[H|[]]]); discriminate.
Qed.

(** ** There is at most one reading *)
Theorem C97_one_reading : forall N T E (tix : T -> nat) (cs : list (construct * reducer N T E)) w v v',
  distinct cs -> whole tix cs w v -> whole tix cs w v' -> v = v'.
Proof. intros N T E tix cs w v v' HD. apply whole_one; auto. Qed.
Print Assumptions C97_one_reading.

(** ** What is returned is the value of the reading, whatever the reducers do otherwise *)
Theorem C97_read : forall N T E (tix : T -> nat) e (cs : list (construct * reducer N T E)) P ws w v,
  distinct cs -> makes e (flat_syntax cs) P ws -> returns tix P w (ROk v) -> whole tix cs w v.
Proof.
  intros N T E tix e cs P ws w v HD Hmk [fuel Hf].
  destruct (C70_usual_conflicts _ _ _ (fun _ => 0) tix e _ P ws w fuel v (flat_api _ _ _) Hmk Hf (or_introl (flat_errors cs))) as (t & [[H1 H2] _] & H3 & H4 & _).
  destruct (proj1 (tree_read tix cs w) _ _ H1 H4 _ H3) as (v' & Ev & Hw & _). injection Ev as <-. rewrite (text_all w t H2) in Hw. exact Hw.
Qed.
Print Assumptions C97_read.

Theorem C97_value : forall N T E (tix : T -> nat) e (cs : list (construct * reducer N T E)) P ws w v,
  distinct cs -> makes e (flat_syntax cs) P ws -> total_on tix (flat_syntax cs) w -> (returns tix P w (ROk v) <-> whole tix cs w v).
Proof.
  intros N T E tix e cs P ws w v HD Hmk Ht. split; [eapply C97_read; eauto|]. intros Hw.
  destruct (C93_decides _ _ _ (fun _ => 0) tix e _ P ws w (flat_api _ _ _) Hmk (flat_apart cs HD) (flat_errors cs) Ht) as [[_ [v' Hv]]|[F _]].
  - rewrite (C97_one_reading _ _ _ tix cs w v v' HD Hw); auto. eapply C97_read; eauto.
  - destruct F. apply (proj1 (whole_der tix cs) _ _ Hw).
Qed.
Print Assumptions C97_value.

(** every text of the language has a reading; everything else is refused *)
Theorem C97_decides : forall N T E (tix : T -> nat) e (cs : list (construct * reducer N T E)) P ws w,
  distinct cs -> makes e (flat_syntax cs) P ws -> total_on tix (flat_syntax cs) w ->
  (exists v, derivable tix (flat_syntax cs) w /\ whole tix cs w v /\ returns tix P w (ROk v)) \/
  (~ derivable tix (flat_syntax cs) w /\ (forall v, ~ whole tix cs w v) /\ returns tix P w RNotFound).
Proof.
  intros N T E tix e cs P ws w HD Hmk Ht. destruct (C93_decides _ _ _ (fun _ => 0) tix e _ P ws w (flat_api _ _ _) Hmk (flat_apart cs HD) (flat_errors cs) Ht) as [[Hd [v Hv]]|[F Hr]].
  - left. exists v. split; auto. split; auto. eapply C97_read; eauto.
  - right. split; auto. split; auto. intros v Hw. apply F. apply (proj1 (whole_der tix cs) _ _ Hw).
Qed.
Print Assumptions C97_decides.

(** ** Example: E ::= n | E + E | E * E | E - E | - E | E ! | ( E ) | E ( E ) | E ? E : E, with n 0, + 1, * 2, - 3, ( 4, ) 5, ? 6, : 7, ! 8.
    [2 * 3 + - 4 ! - 5] is read as [2 * (3 + (- ((4 !) - 5)))]; the postfix adds 100. *)
Definition mx_post : reducer Z tok nat := fun args => match args with [NonTerminal a; Terminal _] => GOk (a + 100)%Z | _ => GPanic end.
Definition calc_cs : list (construct * reducer Z tok nat) :=
  [(atom 0, mx_num); (infix 1, mx_bin Z.add); (infix 2, mx_bin Z.mul); (infix 3, mx_bin Z.sub); (prefix 3, mx_neg); (postfix 8, mx_post); (brackets 4 5, mx_par); (indexing 4 5, mx_app); (ternary 6 7, mx_sel)].
Ltac flat_total := exists (fun _ _ => True); intros r args Hr (Hf & _) _; simpl in Hr; repeat destruct Hr as [<-|Hr]; try destruct Hr; simpl in *;
  repeat match goal with H : Forall2 _ (_ :: _) _ |- _ => inversion H; clear H; subst | H : Forall2 _ [] _ |- _ => inversion H; clear H; subst
    | H : fits _ _ ?a |- _ => destruct a; simpl in H; try contradiction; clear H end;
  simpl; eexists; (split; [reflexivity|exact I]).
Lemma calc_total w : total_on fst (flat_syntax calc_cs) w.
Proof. flat_total. Qed.
Ltac dist := repeat split; [repeat constructor; simpl; intuition discriminate|repeat constructor; simpl; intuition discriminate|simpl; intros p m Hp Hm; repeat destruct Hp as [<-|Hp]; try destruct Hp; simpl in Hm; intuition (subst; try discriminate; auto)].
Lemma calc_distinct : distinct calc_cs.
Proof. dist. Qed.
Definition w_calc : list tok := [num 2; sign 2; num 3; sign 1; sign 3; num 4; sign 8; sign 3; num 5].
Example C97_example : exists P ws, makes env0 (flat_syntax calc_cs) P ws /\ ws <> [] /\ distinct calc_cs /\ total_on fst (flat_syntax calc_cs) w_calc /\
  returns fst P w_calc (ROk (2 * (3 + (- ((4 + 100) - 5))))%Z) /\ whole fst calc_cs w_calc (2 * (3 + (- ((4 + 100) - 5))))%Z /\
  returns fst P [num 2; sign 2] RNotFound.
Proof.
  eexists _, _. split; [mk1|]. split; [discriminate|]. split; [apply calc_distinct|]. split; [apply calc_total|].
  split; [exists 1000; vm_compute; reflexivity|]. split; [|exists 1000; vm_compute; reflexivity].
  eapply (C97_read _ _ _ fst env0 calc_cs); [apply calc_distinct|mk1|]. exists 1000. vm_compute. reflexivity.
Qed.

(** ** The conditions are needed: without one of them there is a reading whose value is not returned *)
Definition cst (k v : nat) : reducer nat nat nat := fun args => if length args =? k then GOk v else GPanic.
Definition unread (cs : list (construct * reducer nat nat nat)) : Prop := exists P ws w v,
  makes env0 (flat_syntax cs) P ws /\ total_on self (flat_syntax cs) w /\ whole self cs w v /\ ~ returns self P w (ROk v).
Ltac fits_len := exists (fun _ _ => True); intros r args Hr (Hf & _) _; simpl in Hr; repeat destruct Hr as [<-|Hr]; try destruct Hr; simpl in *;
  repeat match goal with H : Forall2 _ (_ :: _) _ |- _ => inversion H; clear H; subst | H : Forall2 _ [] _ |- _ => inversion H; clear H; subst end;
  simpl; eexists; (split; [reflexivity|exact I]).
Ltac other := let F := fresh in let H' := fresh in intros F;
  match type of F with returns ?t ?P ?w (ROk ?v) => first [assert (H' : returns t P w RNotFound) by (exists 1000; vm_compute; reflexivity) | assert (H' : returns t P w (ROk 1)) by (exists 1000; vm_compute; reflexivity)];
    pose proof (returns_det t P _ _ _ F H'); discriminate end.
(** two atoms with the same token; two operators with the same token; a bracket that is closed by an operator *)
Theorem C97_first_needed : exists cs, NoDup (firsts_of true cs) /\ (forall p m, In p cs -> In m (more_tokens (fst p)) -> ~ In m (firsts_of true cs)) /\ unread cs.
Proof.
  exists [(atom 0, cst 1 1); (atom 0, cst 1 2)]. split; [constructor|]. split; [simpl; intros p m [<-|[<-|[]]] []|]. eexists _, _, [0], 2. split; [mk1|]. split; [fits_len|]. split; [|other].
  apply whole_operand. apply (operand_closed self _ (atom 0) (cst 1 2) 0 [] []); simpl; auto. constructor.
Qed.
Print Assumptions C97_first_needed.
Theorem C97_operator_needed : exists cs, NoDup (firsts_of false cs) /\ (forall p m, In p cs -> In m (more_tokens (fst p)) -> ~ In m (firsts_of true cs)) /\ unread cs.
Proof.
  exists [(atom 0, cst 1 0); (postfix 1, cst 2 1); (postfix 1, cst 2 2)]. split; [repeat constructor; simpl; auto|]. split; [simpl; intros p m [<-|[<-|[<-|[]]]] []|]. eexists _, _, [0; 1], 2. split; [mk1|]. split; [fits_len|]. split; [|other].
  apply whole_operand. apply (operand_postfix self _ (postfix 1) (cst 2 2) [0] 0 1 [] []); simpl; auto; [|constructor]. apply (operand_closed self _ (atom 0) (cst 1 0) 0 [] []); simpl; auto. constructor.
Qed.
Print Assumptions C97_operator_needed.
Theorem C97_further_needed : exists cs, NoDup (firsts_of false cs) /\ NoDup (firsts_of true cs) /\ unread cs.
Proof.
  set (cs := [(atom 0, cst 1 0); (brackets 2 1, cst 3 2); (postfix 1, cst 2 1)]). exists cs. split; [repeat constructor; simpl; intuition discriminate|]. split; [repeat constructor; simpl; auto|]. eexists _, _, [2; 0; 1; 1], 2. split; [mk1|]. split; [fits_len|]. split; [|other].
  assert (A : operand self cs [0] 0) by (apply (operand_closed self _ (atom 0) (cst 1 0) 0 [] []); simpl; auto; constructor).
  assert (B : operand self cs [0; 1] 1) by (apply (operand_postfix self _ (postfix 1) (cst 2 1) [0] 0 1 [] []); simpl; auto; constructor).
  apply whole_operand. apply (operand_closed self _ (brackets 2 1) (cst 3 2) 2 [0; 1; 1] [NonTerminal 1; Terminal 1]); simpl; auto. apply (middle_next self _ [] [0; 1] 1 1 [] []); [apply whole_operand; exact B|constructor].
Qed.
Print Assumptions C97_further_needed.
