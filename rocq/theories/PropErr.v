(** * What the error of [parse] shows.  C96. *)
From Coq Require Import List Arith Ascii String.
From Verif Require Import Lib Grammar LrModel ParseModel Trees ParseSpec ErrModel ErrSpec ParseExamples PropParse.
Import ListNotations.
Open Scope string_scope.
Open Scope list_scope.

(** C96: When [parse] returns an error, that error is either that of the last reducer call, the only one that failed, is displayed as
    that error, with all options and into every sink, and has that error as its source; or it is a syntax error, displayed as
    one fixed message whatever the options, without a source, and no reducer has failed. *)
Theorem C96_error_shown : forall N T E (nix : N -> nat) (tix : T -> nat) env (s : syntax N T E) P ws w fuel out x
    O (d : display O E) (dyn : E -> dyn_error O),
  api_syntax nix tix s -> makes env s P ws -> parse tix P fuel w = Ok out -> error_of out = Some x ->
  let ok c := exists v, call (gens s) (fst c) (snd c) = GOk v in
  (exists L k args e, parse_calls tix P fuel w = L ++ [(k, args)] /\ Forall ok L /\ call (gens s) k args = GErr e /\
     (forall o K write sink, pe_fmt O d x o K write sink = d e o K write sink) /\
     (forall o, format O (pe_fmt O d) o x = format O d o e) /\ pe_source O dyn x = Some (dyn e)) \/
  (Forall ok (parse_calls tix P fuel w) /\
     (forall o K write sink, pe_fmt O d x o K write sink = write "recovery rule is not found" sink) /\
     (forall o, format O (pe_fmt O d) o x = Ok "recovery rule is not found") /\ pe_source O dyn x = None).
Proof.
  intros N T E nix tix env s P ws w fuel out x O d dyn Ha Hmk Hp Hx ok. pose proof (C25_first_error_wins _ _ _ nix tix env s P ws w fuel Ha Hmk) as H. cbv zeta in H. rewrite Hp in H.
  destruct out as [v| |e]; cbn in Hx; try discriminate; injection Hx as <-.
  - right. auto.
  - left. destruct H as (L & k & args & H1 & H2 & H3). exists L, k, args, e. auto 10.
Qed.
Print Assumptions C96_error_shown.
(** no error without one of these two *)
Theorem C96_no_error : forall N T E (tix : T -> nat) (P : parser N T E) fuel w out, parse tix P fuel w = Ok out ->
  (error_of out = None <-> exists v, out = ROk v).
Proof. intros N T E tix P fuel w out _. destruct out; cbn; split; try discriminate; eauto; intros [v0 H]; congruence. Qed.
Print Assumptions C96_no_error.

(** Parsers run by reducers of parsers, [n] deep: an error from inside is shown by every parser around it as it is; a report that
    follows the sources shows the same message once more for every parser around it. *)
Theorem C96_nested : forall O E (d : display O E) (dyn : E -> dyn_error O) n e o,
  (forall o K write sink, de_fmt O (dyn e) o K write sink = d e o K write sink) ->
  (forall K write sink, nested_display d n (passed_on n e) o K write sink = d e o K write sink) /\
  format O (nested_display d n) o (passed_on n e) = format O d o e /\
  report o (nested_dyn d dyn n (passed_on n e)) = repeat (format O d o e) n ++ report o (dyn e).
Proof.
  intros O E d dyn n e o Hd.
  assert (H0 : forall n K write sink, nested_display d n (passed_on n e) o K write sink = d e o K write sink) by (intros n0; induction n0 as [|m IH]; cbn; auto).
  split; [apply H0|]. split; [unfold format; rewrite H0; reflexivity|].
  induction n as [|n IH]; [reflexivity|]. cbn [nested_dyn passed_on repeat app report pe_dyn de_source pe_source]. rewrite IH. f_equal.
  unfold format. cbn [de_fmt pe_fmt]. rewrite H0. reflexivity.
Qed.
Print Assumptions C96_nested.
(** a syntax error found by the innermost parser *)
Theorem C96_nested_syntax_error : forall O E (d : display O E) (dyn : E -> dyn_error O) n o,
  format O (nested_display (pe_fmt O d) n) o (passed_on n RecoveryRuleNotFound) = Ok "recovery rule is not found" /\
  report o (nested_dyn (pe_fmt O d) (pe_dyn O d dyn) n (passed_on n RecoveryRuleNotFound)) = repeat (Ok "recovery rule is not found") (S n).
Proof.
  intros O E d dyn n o. destruct (C96_nested O (parse_error E) (pe_fmt O d) (pe_dyn O d dyn) n RecoveryRuleNotFound o) as (_ & H1 & H2); [reflexivity|].
  rewrite H1, H2. split; [reflexivity|]. cbn. clear. induction n; cbn; [reflexivity|]. f_equal. exact IHn.
Qed.
Print Assumptions C96_nested_syntax_error.

(** ** Example: the option is a minimal width; the reducer's errors fill up with blanks, the message for syntax errors does not *)
Fixpoint blanks (n : nat) : string := match n with 0 => "" | S n => String " "%char (blanks n) end.
Definition shown77 : display nat nat := fun e width K write k => write (append (blanks (width - 3)) (if Nat.eqb e 77 then "bad" else "???")) k.
Definition dyn77 (e : nat) : dyn_error nat := Dyn nat (shown77 e) None.
Example C96_example : api_syntax nix0 tkix expr13 /\ makes env0 expr13 P_expr13 [] /\
  (exists x, error_of (RReducer (N := nat) 77) = Some x /\ parse tkix P_expr13 100 w_expr13 = Ok (RReducer 77) /\
     format nat (pe_fmt nat shown77) 5 x = Ok "  bad" /\ report 0 (pe_dyn nat shown77 dyn77 x) = [Ok "bad"; Ok "bad"]) /\
  (exists x, parse tkix P_expr13 100 [(kPlus, 0)] = Ok RNotFound /\ error_of (RNotFound (N := nat) (E := nat)) = Some x /\
     format nat (pe_fmt nat shown77) 40 x = Ok "recovery rule is not found" /\ report 0 (pe_dyn nat shown77 dyn77 x) = [Ok "recovery rule is not found"]).
Proof.
  split; [apply expr_api|]. split; [apply expr13_makes|]. split; eexists; repeat split; vm_compute; reflexivity.
Qed.
