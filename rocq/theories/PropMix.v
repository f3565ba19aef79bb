(** * The iterator and the reducers share a state: C62

    [M] is the type of all that the iterator and the reducers can read and write; [next] is the [next] of the iterator.  [syntax_at s m0] is
    the syntax whose rules are those of [s], made with the public functions. *)
From Coq Require Import List Arith Lia Bool.
From Verif Require Import Lib Grammar LoopSpec LrModel LrSpec LrTop LrMono ParseModel Trees ParseSpec GramFacts ParseTerm ParseLoop ParseTop ParseMore ParseLin ParseExamples ParseRel MachProofs PullModel PullProofs EffModel EffSpec EffProofs MixModel MixSpec MixProofs PropParse PropEff.
Import ListNotations.

(** ** C62: the tokens are taken and the reducers called as in an evaluation of the tree from left to right, one token ahead *)
(** If evaluating the tree [t] of the tokens [w], one token ahead, the iterator gives the tokens [w] (which it may make up
    from what the reducers have done), then [parse] has this result and leaves this state: also when a reducer fails or the iterator panics. *)
Theorem C62_lookahead_timing : forall M N T E (nix : N -> nat) (tix : T -> nat) (next : M -> res (option T) * M) e (s : esyntax M N T E) P m0 w t r m' ys,
  api_syntax nix tix (syntax_at s m0) -> eff_makes e s P [] -> ~ cyclic (map er_rule (es_rules s)) (es_start s) -> (forall m, fst (next m) <> OutOfFuel) ->
  proper_tree tix (syntax_at s m0) w t -> evaluate_ahead next (egens s) t m0 = (r, m', ys) -> answers ys w -> mix_yields tix next P m0 r m'.
Proof. intros M N T E nix tix next e s P m0 w t r m' ys Ha Hmk Hnc Hret Ht Hev Hans. eapply (mix_complete nix tix next e s P [] m0 Ha Hmk); eauto. Qed.
Print Assumptions C62_lookahead_timing.

(** a success, also of a parser with warnings, is such an evaluation: of a tree of the tokens that the iterator has given, each asked for once and
    the end once *)
Theorem C62_timing_of_success : forall M N T E (nix : N -> nat) (tix : T -> nat) (next : M -> res (option T) * M) e (s : esyntax M N T E) P ws m0 v m',
  api_syntax nix tix (syntax_at s m0) -> eff_makes e s P ws -> error_free (syntax_at s m0) -> mix_returns tix next P m0 (ROk v) m' ->
  exists w t, proper_tree tix (syntax_at s m0) w t /\ evaluate_ahead next (egens s) t m0 = (GOk (NonTerminal v), m', map Some w ++ [None]).
Proof. intros M N T E nix tix next e s P ws m0 v m' Ha Hmk Hef H. eapply (mix_sound nix tix next e s P ws m0 Ha Hmk); eauto. Qed.
Print Assumptions C62_timing_of_success.

(** [parse] returns, within a number of turns linear in a bound on the number of tokens still to come, which a token must decrease and no
    reducer may increase *)
Theorem C62_terminates : forall M N T E (nix : N -> nat) (tix : T -> nat) e (s : esyntax M N T E) P ws m1,
  api_syntax nix tix (syntax_at s m1) -> eff_makes e s P ws ->
  ws = [] /\ productive (map er_rule (es_rules s)) \/ loop_free (map er_rule (es_rules s)) (es_start s) -> error_free (syntax_at s m1) ->
  exists C, forall (next : M -> res (option T) * M) (mu : M -> nat) m0, (forall m, fst (next m) <> OutOfFuel) ->
    (forall m x m', next m = (Ok (Some x), m') -> mu m' < mu m) -> (forall g m args, In g (egens s) -> mu (snd (g m args)) <= mu m) ->
    exists r m', mix_parse tix next P (C * (mu m0 + 1)) m0 = Ok (r, m').
Proof.
  intros M N T E nix tix e s P ws m1 Ha Hmk H1 Hef. destruct (skel_made nix tix e s P ws m1 Ha Hmk) as [ss Hm].
  assert (Hwf : forall t, well_founded (rstep (gram (skel s)) (sx_start (skel s)) ss t)).
  { destruct H1 as [[Hw Hp]|Hlf].
    - apply rstep_wf; [exact (md_fresh _ _ _ _ Hm)|exact (cf_of (skel s) (skel_parser s P) ws ss Hm Hw)|rewrite gram_skel; exact Hp].
    - apply loop_free_wf; [exact (md_fresh _ _ _ _ Hm)|rewrite gram_skel; exact Hlf]. }
  assert (Hef' : error_free (skel s)) by (unfold error_free in *; rewrite gram_skel; rewrite gram_at in Hef; auto).
  destruct (burst (gram (skel s)) (sx_start (skel s)) ss (pr_tab (skel_parser s P)) (md_can _ _ _ _ Hm) Hwf) as (M1 & C & HB).
  exists (M1 + C + 1). intros next mu m0 Hret Hmu Hg.
  assert (Hg' : forall g m args, In g (ep_gens P) -> mu (snd (g m args)) <= mu m).
  { intros g m args H. rewrite (proj2 (skel_makes _ _ _ _ Hmk)) in H. apply in_app_or in H as [H|[<-|[]]]; auto. }
  set (F := (M1 + C + 1) * (mu m0 + 1)).
  destruct (few_tokens tix next P mu Hmu Hg' F m0 (ps_init (parser_at P m0) [])) as (w & Hf & Hl). cbn [ps_init ps_syms app] in Hf.
  destruct (msim_init tix next s P ss m0 w) as [Hs Hb].
  refine (m_ends tix next s P ws ss m0 Hm Hret w F _ _ _ _ _ _ _ (or_introl Hef') Hs (or_introl Hb) (or_introl Hf) _).
  assert (G : parse_full tix (skel_parser s P) ((M1 + C + 1) * S (length w)) w <> OutOfFuel).
  { apply (turns tix (gram (skel s)) (sx_start (skel s)) ss (skel_parser s P) (md_fresh _ _ _ _ Hm) (md_eoi _ _ _ _ Hm) (md_can _ _ _ _ Hm) (md_len _ _ _ _ Hm)) with (M := M1) (C := C); auto. }
  intros H. apply G. unfold parse_full. destruct (loop (parse_step tix (skel_parser s P)) ((M1 + C + 1) * S (length w)) (ps_init (skel_parser s P) w)) as [x| |] eqn:El; auto;
    (rewrite (loop_mono _ _ F _ _ El) in H; [discriminate|discriminate|unfold F; nia]).
Qed.
Print Assumptions C62_terminates.

(** the models with effects of the reducers only (C60) and with an arbitrary iterator only (C57) are special cases *)
Theorem C62_generalises : forall M N T E (tix : T -> nat),
  (forall (P : eparser M N T E) fuel m w, same_as_list (mix_parse tix list_next (beside_parser P) fuel (m, w)) (eff_parse tix P fuel m w)) /\
  (forall S (pull : S -> res (option T * S)) (P : parser N T E) fuel src, same_as_pull (mix_parse tix (pull_next pull) (lift_parser P) fuel src) (parse_pull tix pull P fuel src)).
Proof.
  intros M N T E tix. split.
  - intros P fuel m w. unfold mix_parse, mix_init, eff_parse, eff_init. rewrite beside_at. apply (mix_eff tix P fuel m (ps_init (parser_at P m) []) w). reflexivity.
  - intros S pull P fuel src. unfold mix_parse, mix_init, parse_pull. rewrite lift_at. apply mix_pull.
Qed.
Print Assumptions C62_generalises.

(** ** The example: the bracketed sum of PropEff.v.  The state is the text still to come and the log; the iterator notes in the log what it gives
    (under 100 and the kind of the token; 200 at the end).  It says that the text has ended as soon as a bracket has been reduced (rule 2) and the
    next token would be 4. *)
Definition mlog : Type := list tk * elog.
Definition on_log (g : ereducer elog nat tk nat) : ereducer mlog nat tk nat := fun m args => (fst (g (snd m) args), (fst m, snd (g (snd m) args))).
Definition mexpr : esyntax mlog nat tk nat := mk_esyntax (map (fun r => mk_erule (er_rule r) (on_log (er_gen r))) (es_rules eexpr)) nE.
Definition mnext (m : mlog) : res (option tk) * mlog :=
  match fst m with
  | [] => (Ok None, ([], (200, 0) :: snd m))
  | x :: z => if (snd x =? 4) && existsb (fun c => fst c =? 2) (snd m) then (Ok None, (x :: z, (200, 4) :: snd m))
              else if snd x =? 66 then (Panic, (z, (66, 0) :: snd m)) else (Ok (Some x), (z, (100 + fst x, snd x) :: snd m))
  end.
Definition P_mexpr : eparser mlog nat tk nat :=
  match eff_new env0 100 mexpr with Ok r => fst r | _ => mk_ep (mk_parser [] [] [] [] 0) [] end.
Lemma mexpr_makes : eff_makes env0 mexpr P_mexpr [].
Proof. split; [apply env0_ok|]. exists 100. unfold P_mexpr. vm_compute. reflexivity. Qed.
Lemma mexpr_gram m : gram (syntax_at mexpr m) = gram expr.
Proof. reflexivity. Qed.
Lemma mexpr_api m : api_syntax nix0 tkix (syntax_at mexpr m).
Proof.
  unfold api_syntax, syntax_at, mexpr, eexpr. cbn [es_rules sx_rules map er_rule er_gen]. repeat apply Forall_cons; try apply Forall_nil.
  - apply (api_raw nix0 tkix nE [NT' nE; TM' kPlus; NT' nT]).
  - apply (api_raw nix0 tkix nE [NT' nT]).
  - apply (api_raw nix0 tkix nT [TM' kL; NT' nE; TM' kR]).
  - apply (api_raw nix0 tkix nT [TM' kId]).
Qed.
Lemma mnext_returns m : fst (mnext m) <> OutOfFuel.
Proof. unfold mnext. destruct (fst m) as [|x z]; [discriminate|]. destruct (_ && _); [discriminate|]. destruct (_ =? _); discriminate. Qed.

(** 1+(2+3): the log shows the calls (in reverse): the id 1 is taken, then the +, then rule 3 is called; at the end the end is seen before the bracket
    is reduced *)
Example C62_example :
  api_syntax nix0 tkix (syntax_at mexpr (w_expr, [])) /\ eff_makes env0 mexpr P_mexpr [] /\ ~ cyclic (map er_rule (es_rules mexpr)) (es_start mexpr) /\ (forall m, fst (mnext m) <> OutOfFuel) /\
  error_free (syntax_at mexpr (w_expr, [])) /\ productive (map er_rule (es_rules mexpr)) /\
  proper_tree tkix (syntax_at mexpr (w_expr, [])) w_expr t_expr /\
  evaluate_ahead mnext (egens mexpr) t_expr (w_expr, []) = (GOk (NonTerminal 206), ([], [(0, 0); (2, 0); (200, 0); (0, 0); (3, 3); (103, 0); (100, 3); (1, 0); (3, 2); (101, 0); (100, 2); (102, 0); (1, 0); (3, 1); (101, 0); (100, 1)]), map Some w_expr ++ [None]) /\
  answers (map Some w_expr ++ [None]) w_expr /\
  mix_returns tkix mnext P_mexpr (w_expr, []) (ROk 206) ([], [(0, 0); (2, 0); (200, 0); (0, 0); (3, 3); (103, 0); (100, 3); (1, 0); (3, 2); (101, 0); (100, 2); (102, 0); (1, 0); (3, 1); (101, 0); (100, 1)]).
Proof.
  split; [apply mexpr_api|]. split; [apply mexpr_makes|]. split; [apply (expr_not_cyclic r_id)|]. split; [apply mnext_returns|]. split; [unfold error_free; rewrite mexpr_gram; apply (expr_free r_id)|].
  split; [apply (expr_productive r_id)|]. split; [apply t_expr_tree|]. split; [vm_compute; reflexivity|]. split; [apply answers_end|]. exists 100. vm_compute. reflexivity.
Qed.
(** feedback: in (1)+4 the iterator is asked for the 4 after the bracket has been reduced, so it ends there; in (1)4 it is asked before, the 4 arrives and is
    a syntax error *)
Example C62_example_feedback :
  mix_returns tkix mnext P_mexpr ([(kL, 0); (kId, 1); (kR, 0); (kPlus, 0); (kId, 4)], []) RNotFound
    ([(kId, 4)], [(200, 4); (1, 0); (2, 0); (101, 0); (1, 0); (3, 1); (103, 0); (100, 1); (102, 0)]) /\
  mix_returns tkix mnext P_mexpr ([(kL, 0); (kId, 1); (kR, 0); (kId, 4)], []) RNotFound ([], [(100, 4); (1, 0); (3, 1); (103, 0); (100, 1); (102, 0)]).
Proof. split; exists 100; vm_compute; reflexivity. Qed.
(** failures: in (1)+66 the iterator panics at 66, after the calls for (1); in (13)+66 the id is refused before that, when the bracket behind it has been taken *)
Definition w_fail (n : nat) : list tk := [(kL, 0); (kId, n); (kR, 0); (kPlus, 0); (kId, 66)].
Definition t_fail : tree := Node 0 [Node 1 [Node 2 [Leaf 0; Node 1 [t_id 1]; Leaf 2]]; Leaf 3; t_id 4].
Example C62_example_failures :
  proper_tree tkix (syntax_at mexpr (w_fail 1, [])) (w_fail 1) t_fail /\
  evaluate_ahead mnext (egens mexpr) t_fail (w_fail 1, []) = (GPanic, ([], [(66, 0); (1, 0); (2, 0); (101, 0); (1, 0); (3, 1); (103, 0); (100, 1); (102, 0)]), map Some (firstn 4 (w_fail 1))) /\
  answers (map Some (firstn 4 (w_fail 1))) (w_fail 1) /\
  mix_panics tkix mnext P_mexpr (w_fail 1, []) ([], [(66, 0); (1, 0); (2, 0); (101, 0); (1, 0); (3, 1); (103, 0); (100, 1); (102, 0)]) /\
  evaluate_ahead mnext (egens mexpr) t_fail (w_fail 13, []) = (GErr 77, ([(kPlus, 0); (kId, 66)], [(3, 13); (103, 0); (100, 13); (102, 0)]), map Some (firstn 3 (w_fail 13))) /\
  mix_returns tkix mnext P_mexpr (w_fail 13, []) (RReducer 77) ([(kPlus, 0); (kId, 66)], [(3, 13); (103, 0); (100, 13); (102, 0)]).
Proof.
  split; [apply (tree_check_ok (syntax_at mexpr (w_fail 1, [])) (w_fail 1) t_fail); vm_compute; reflexivity|]. split; [vm_compute; reflexivity|]. split; [apply (answers_some (firstn 4 (w_fail 1)) [(kId, 66)])|].
  split; [exists 100; vm_compute; reflexivity|]. split; [vm_compute; reflexivity|]. exists 100; vm_compute; reflexivity.
Qed.
(** the bound of C62_terminates: the length of the text *)
Example C62_example_bound : (forall m x m', mnext m = (Ok (Some x), m') -> length (fst m') < length (fst m)) /\ (forall g m args, In g (egens mexpr) -> length (fst (snd (g m args))) <= length (fst m)).
Proof.
  split.
  - intros [l g] x m'. unfold mnext. cbn [fst snd]. destruct l as [|y z]; [discriminate|]. destruct (_ && _); [discriminate|]. destruct (_ =? 66); [discriminate|]. intros H. injection H as <- <-. simpl. lia.
  - intros g m args H. simpl in H. repeat destruct H as [<-|H]; try contradiction; simpl; lia.
Qed.
