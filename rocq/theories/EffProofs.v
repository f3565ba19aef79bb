(** * Reducers with effects: proofs *)
From Coq Require Import List Arith Lia Bool Sorted.
From Verif Require Import Lib Grammar LoopSpec LrModel LrSpec LrTop LrMono ParseModel Trees ParseSpec ParseInv ParseComplete GramFacts ParseTerm ParseLoop ParseTop ParseMore ParseHash ParseAmb ParseRecTerm ParseRel EffModel EffSpec.
Import ListNotations.

Lemma call_at {M N T E} (P : eparser M N T E) m k args : call (pr_gens (parser_at P m)) k args = fst (ecall (ep_gens P) k m args).
Proof. unfold call, ecall, parser_at. cbn [pr_gens]. rewrite nth_error_map. destruct (nth_error (ep_gens P) k); reflexivity. Qed.

Lemma args_fuel {N T} (all : list T) (es : list (entry N)) : forall base, reduce_args all base es <> OutOfFuel.
Proof.
  induction es as [|e es IH]; intros base; simpl; [discriminate|]. destruct e as [v i|k i|lo hi|]; try discriminate.
  - specialize (IH base). destruct (reduce_args all base es); simpl; congruence.
  - destruct (i <? base); [discriminate|]. destruct (nth_error all i); simpl; [|discriminate]. specialize (IH (S i)). destruct (reduce_args all (S i) es); simpl; congruence.
  - unfold slice. destruct (_ && _); simpl; [|discriminate]. specialize (IH base). destruct (reduce_args all base es); simpl; congruence.
Qed.
Lemma put_back_fuel {T} (tix : T -> nat) syms a b : put_back tix syms a b <> OutOfFuel.
Proof.
  unfold put_back. induction (seq a (b - a)) as [|i l IH]; simpl; [discriminate|]. destruct (nth_error syms i); simpl; [|discriminate].
  destruct (mapM _ l); simpl; congruence.
Qed.
Lemma step_fuel {N T E} (tix : T -> nat) (P : parser N T E) s : parse_step tix P s <> inr OutOfFuel.
Proof.
  unfold parse_step. cbv zeta. destruct (ps_buf (ps_read tix s)) as [|[t i] buf]; [discriminate|].
  assert (A : forall q x, act (pr_tab P) q x <> OutOfFuel) by (intros q x; unfold act; destruct (aget _ _ _); simpl; discriminate).
  pose proof (A (ps_state (ps_read tix s)) t) as A0. destruct (act (pr_tab P) (ps_state (ps_read tix s)) t) as [[[q|k|]|]| |]; try discriminate; [| | | |congruence].
  - destruct t; discriminate.
  - destruct (nth_error (p_rules (pr_tab P)) k) as [r|]; [|discriminate]. destruct (_ <? _); [discriminate|].
    match goal with |- context [reduce_args ?a ?b ?c] => pose proof (args_fuel a c b); destruct (reduce_args a b c) as [args| |] end; try congruence; try discriminate.
    destruct (nth_error (pr_gens P) k) as [g|]; [|discriminate]. destruct (g args); try discriminate. destruct (aget _ _ (p_goto (pr_tab P))); [|discriminate]. destruct (aget _ _ _); discriminate.
  - destruct (ps_stack _) as [|[q [v j|k j|lo hi|]] l]; discriminate.
  - match goal with |- context [recover ?a ?b ?c ?d ?e ?f ?g ?h] => destruct (recover a b c d e f g h) as [[[[[[cur st] rc] bk] hd] eh]|] end; [|discriminate].
    match goal with |- context [put_back ?a ?b ?c ?d] => pose proof (put_back_fuel a b c d); destruct (put_back a b c d) end; try congruence; try discriminate.
    pose proof (A cur TErr) as A1. destruct (act (pr_tab P) cur TErr) as [[[q|k|]|]| |]; try discriminate. congruence.
Qed.

(** ** Two runs *)
Section Two.
  Context {M1 N1 T1 E1 M2 N2 T2 E2 : Type} (tix1 : T1 -> nat) (tix2 : T2 -> nat).
  Variables (P1 : eparser M1 N1 T1 E1) (P2 : eparser M2 N2 T2 E2).
  Hypothesis Htab : ep_tab P1 = ep_tab P2.
  Variables (w1 : list T1) (w2 : list T2).
  Hypothesis Hw : map tix1 w1 = map tix2 w2.
  Notation Rt := (same_place w1 w2).
  Notation Rv := (fun (_ : N1) (_ : N2) => True).

  Lemma place_kind x y : Rt x y -> tix1 x = tix2 y.
  Proof.
    intros (i & H1 & H2). apply (map_nth_error tix1) in H1. apply (map_nth_error tix2) in H2. rewrite Hw in H1. congruence.
  Qed.
  Lemma place_all : Forall2 Rt w1 w2.
  Proof.
    assert (G : forall a b u1 u2, w1 = a ++ u1 -> w2 = b ++ u2 -> length a = length b -> length u1 = length u2 -> Forall2 Rt u1 u2).
    { intros a b u1. revert a b. induction u1 as [|x u1 IH]; intros a b [|y u2] H1 H2 Hl Hl'; try discriminate; constructor.
      - exists (length a). rewrite H1, H2. rewrite nth_error_app2, Nat.sub_diag by lia. rewrite Hl, nth_error_app2, Nat.sub_diag by lia. auto.
      - apply (IH (a ++ [x]) (b ++ [y])); [rewrite <- app_assoc; auto|rewrite <- app_assoc; auto|rewrite !app_length; simpl; lia|simpl in Hl'; lia]. }
    apply (G [] [] w1 w2); auto. pose proof (f_equal (@length _) Hw) as Hl. rewrite !map_length in Hl. auto.
  Qed.
  Lemma args_same a b : Forall2 (arg_rel Rv Rt) a b -> Forall2 (same_arg w1 w2) a b.
  Proof. induction 1 as [|x y l m H _ IH]; constructor; auto. Qed.

  Definition fails {N E} (r : gres N E) : Prop := forall v, r <> GOk v.
  Lemma fails_stop {M N T E} (tix : T -> nat) (P : eparser M N T E) m s k args : step_call tix (parser_at P m) s = Some (k, args) ->
    fails (fst (ecall (ep_gens P) k m args)) -> exists r, eff_step tix P (m, s) = inr r.
  Proof.
    intros Hc Hf. pose proof (call_fails tix _ _ _ _ Hc) as H. rewrite call_at in H. unfold eff_step.
    destruct (fst (ecall (ep_gens P) k m args)) as [v|e|]; [exfalso; apply (Hf v); auto| |].
    - destruct H as [it H]. rewrite H. eauto.
    - rewrite H. eauto.
  Qed.

  Lemma same_run fuel : forall m1 m2 s1 s2, srel Rv Rt s1 s2 ->
    same_calls w1 w2 (ecalls tix1 P1 fuel (m1, s1)) (ecalls tix2 P2 fuel (m2, s2)) /\
    ((exists c, In c (ecalls tix1 P1 fuel (m1, s1)) /\ fails (snd c)) \/ (exists c, In c (ecalls tix2 P2 fuel (m2, s2)) /\ fails (snd c)) \/
     same_end (loop (eff_step tix1 P1) fuel (m1, s1)) (loop (eff_step tix2 P2) fuel (m2, s2))).
  Proof.
    induction fuel as [|fuel IH]; intros m1 m2 s1 s2 Hs; [split; [constructor|right; right; exact I]|].
    pose proof (turn_rel tix1 tix2 Rv Rt place_kind (parser_at P1 m1) (parser_at P2 m2) Htab s1 s2 Hs) as H.
    cbn [ecalls fst snd loop]. destruct (step_call tix1 (parser_at P1 m1) s1) as [[k a1]|] eqn:C1, (step_call tix2 (parser_at P2 m2) s2) as [[k2 a2]|] eqn:C2; try tauto.
    - destruct H as (<- & Ha & H). apply args_same in Ha. rewrite !call_at in H. cbn [app].
      pose proof (fails_stop tix1 P1 m1 s1 k a1 C1) as F1. pose proof (fails_stop tix2 P2 m2 s2 k a2 C2) as F2.
      destruct (fst (ecall (ep_gens P1) k m1 a1)) as [v1|e1|] eqn:R1.
      2,3: destruct F1 as [r F1]; [intros v; discriminate|]; rewrite F1; split; [apply same_fail; auto; left; split; auto; intros v; discriminate|left; eexists; split; [left; reflexivity|intros v; discriminate]].
      destruct (fst (ecall (ep_gens P2) k m2 a2)) as [v2|e2|] eqn:R2.
      2,3: destruct F2 as [r F2]; [intros v; discriminate|]; rewrite F2; split; [apply same_fail; auto; right; split; auto; intros v; discriminate|right; left; eexists; split; [left; reflexivity|intros v; discriminate]].
      specialize (H v1 v2 eq_refl eq_refl I). unfold eff_step. rewrite C1, C2.
      pose proof (step_fuel tix1 (parser_at P1 m1) s1) as Z. destruct (parse_step tix1 (parser_at P1 m1) s1) as [s1'|r1], (parse_step tix2 (parser_at P2 m2) s2) as [s2'|r2]; simpl in H; try tauto.
      + destruct (IH (snd (ecall (ep_gens P1) k m1 a1)) (snd (ecall (ep_gens P2) k m2 a2)) s1' s2' H) as [I1 I2]. split; [apply same_ok; auto|].
        destruct I2 as [(c & I2 & I3)|[(c & I2 & I3)|I2]]; [left; exists c; split; auto; right; auto|right; left; exists c; split; auto; right; auto|auto].
      + split; [apply same_ok; auto; constructor|]. right. right. destruct r1 as [[[x| |x] i1]| |], r2 as [[[y| |y] i2]| |]; simpl in H; try tauto; unfold out_rel in H; simpl in *; try tauto; try congruence; destruct H as [H _]; apply F2_len in H; auto.
    - unfold eff_step. rewrite C1, C2. cbn [app].
      pose proof (step_fuel tix1 (parser_at P1 m1) s1) as Z. destruct (parse_step tix1 (parser_at P1 m1) s1) as [s1'|r1], (parse_step tix2 (parser_at P2 m2) s2) as [s2'|r2]; simpl in H; try tauto.
      + apply IH; auto.
      + split; [constructor|]. right. right. destruct r1 as [[[x| |x] i1]| |], r2 as [[[y| |y] i2]| |]; simpl in H; try tauto; unfold out_rel in H; simpl in *; try tauto; try congruence; destruct H as [H _]; apply F2_len in H; auto.
  Qed.
End Two.

(** ** A run and the evaluation of a tree *)
Lemma emap_app {M A B E} (f : A -> M -> gres B E * M) l1 l2 m :
  emap f (l1 ++ l2) m = match emap f l1 m with
    | (GOk b1, m1) => let (r, m2) := emap f l2 m1 in (gbind r (fun b2 => GOk (b1 ++ b2)), m2)
    | (GErr e, m1) => (GErr e, m1)
    | (GPanic, m1) => (GPanic, m1)
    end.
Proof.
  revert m. induction l1 as [|a l1 IH]; intros m; simpl.
  - destruct (emap f l2 m) as [[b|e|] m2]; reflexivity.
  - destruct (f a m) as [[b|e|] m1]; auto. rewrite IH. destruct (emap f l1 m1) as [[b1|e|] m2]; simpl; auto. destruct (emap f l2 m2) as [[b2|e|] m3]; reflexivity.
Qed.
Lemma emap_len {M A B E} (f : A -> M -> gres B E * M) l : forall m bs m', emap f l m = (GOk bs, m') -> length bs = length l.
Proof.
  induction l as [|a l IH]; simpl; intros m bs m' H; [injection H as <- <-; auto|]. destruct (f a m) as [[b|e|] m1]; try discriminate.
  destruct (emap f l m1) as [[b1|e|] m2] eqn:E1; simpl in H; try discriminate. injection H as <- <-. simpl. f_equal. eauto.
Qed.

(** what a stack entry says about an argument *)
Definition val_rel {N T} (e : entry N) (a : arg N T) : Prop :=
  match e, a with ENon v _, NonTerminal v' => v = v' | ENon _ _, _ => False | _, NonTerminal _ => False | _, _ => True end.
Lemma args_vals {N T} (all : list T) (es : list (entry N)) : forall base args, reduce_args all base es = Ok args -> Forall2 val_rel es args.
Proof.
  induction es as [|e es IH]; intros base args H; simpl in H; [injection H as <-; constructor|]. destruct e as [v i|k i|lo hi|]; try discriminate.
  - destruct (reduce_args all base es) as [r| |] eqn:Er; try discriminate. simpl in H. injection H as <-. constructor; [reflexivity|eauto].
  - destruct (i <? base); [discriminate|]. destruct (nth_error all i) as [x|]; try discriminate. simpl in H. destruct (reduce_args all (S i) es) as [r| |] eqn:Er; try discriminate. injection H as <-. constructor; [exact I|eauto].
  - destruct (slice all lo hi) as [x| |]; try discriminate. simpl in H. destruct (reduce_args all base es) as [r| |] eqn:Er; try discriminate. injection H as <-. constructor; [exact I|eauto].
Qed.

(** how a turn that is not a recovery changes the stack *)
Lemma step_stack {N T E} (tix : T -> nat) (P : parser N T E) s s' : step_error tix P s = None -> parse_step tix P s = inl s' ->
  match step_call tix P s with
  | Some (k, args) => exists q i v, call (pr_gens P) k args = GOk v /\ length args <= length (ps_stack s) /\
      Forall2 val_rel (map snd (rev (firstn (length args) (ps_stack s)))) args /\ ps_stack s' = (q, ENon v i) :: skipn (length args) (ps_stack s)
  | None => exists q e, ps_stack s' = (q, e) :: ps_stack s /\ match e with ENon _ _ => False | _ => True end
  end.
Proof.
  assert (Er : ps_stack (ps_read tix s) = ps_stack s) by (unfold ps_read; destruct (ps_buf s); auto; destruct (ps_iter s); auto).
  unfold step_error, step_call, parse_step, call. cbv zeta. rewrite Er. destruct (ps_buf (ps_read tix s)) as [|[t i] buf]; [discriminate|].
  destruct (act (pr_tab P) (ps_state (ps_read tix s)) t) as [[[q|k|]|]| |]; intros He; try discriminate.
  - destruct t; intros H; try discriminate; injection H as <-; eexists; eexists; (split; [reflexivity|exact I]).
  - destruct (nth_error (p_rules (pr_tab P)) k) as [r|]; [|discriminate]. destruct (length (ps_stack s) <? length (r_rhs r)) eqn:El; [discriminate|]. apply Nat.ltb_ge in El.
    destruct (reduce_args (ps_syms (ps_read tix s)) 0 (map snd (rev (firstn (length (r_rhs r)) (ps_stack s))))) as [args| |] eqn:Ea; try discriminate.
    destruct (nth_error (pr_gens P) k) as [g|]; [|discriminate]. destruct (g args) as [v|e|]; try discriminate.
    destruct (aget _ _ (p_goto (pr_tab P))) as [row|]; [|discriminate]. destruct (aget _ (r_lhs r) row) as [q|]; [|discriminate].
    intros H. injection H as <-. cbn [ps_stack]. apply args_vals in Ea. pose proof (F2_len _ _ _ Ea) as Hl. rewrite map_length, rev_length, firstn_length in Hl.
    assert (Hn : length args = length (r_rhs r)) by lia. rewrite Hn. eexists. eexists. exists v. repeat split; auto.
  - destruct (ps_stack s) as [|[q [v j|k j|lo hi|]] l]; discriminate.
Qed.

Section Track.
  Context {M N T E : Type} (tix : T -> nat).
  Variables (s : esyntax M N T E) (P : eparser M N T E) (ws : list warning) (ss : nat) (w : list T) (m0 : M).
  (** the same grammar with reducers that do nothing *)
  Definition skel : syntax unit T unit := mk_syntax (map (fun r => mk_crule (er_rule r) (fun _ => GOk tt)) (es_rules s)) (es_start s).
  Definition skel_parser : parser unit T unit := mk_lr1 (ep_tab P) (gens skel ++ [fun _ => GPanic]).
  Hypothesis Hm : made skel skel_parser ws ss.
  Hypothesis Hgs : ep_gens P = egens s ++ [fun m _ => (GPanic, m)].
  Notation rs := (augment (gram skel) (es_start s) ss).
  Notation invat := (inv_at tix (gram skel) (es_start s) ss skel_parser w).
  Notation Rv := (fun (_ : unit) (_ : N) => True).
  Notation Rt := (@eq T).
  Notation ev' := (ev (pr_gens skel_parser) w).
  Notation evE := (eve (ep_gens P) w).

  Lemma kind_eq (x y : T) : x = y -> tix x = tix y.
  Proof. congruence. Qed.
  Lemma shape t m a a' m' : ev' t = GOk a -> evE t m = (GOk a', m') -> arg_rel Rv Rt a a'.
  Proof.
    destruct t as [i|lo hi|k ts]; cbn [ev eve]; intros H H'.
    - destruct (nth_error w i); [|discriminate]. injection H as <-. injection H' as <- <-. reflexivity.
    - injection H as <-. injection H' as <- <-. simpl. induction (firstn _ _); constructor; auto.
    - destruct (gmap ev' ts) as [args| |]; try discriminate. cbn [gbind] in H. destruct (call (pr_gens skel_parser) k args) as [v| |]; try discriminate. injection H as <-.
      destruct (emap evE ts m) as [[args'| |] m1]; try discriminate. destruct (ecall (ep_gens P) k m1 args') as [[v'| |] m2]; try discriminate. injection H' as <- <-. exact I.
  Qed.
  Lemma shapes ts : forall m l l' m', gmap ev' ts = GOk l -> emap evE ts m = (GOk l', m') -> Forall2 (arg_rel Rv Rt) l l'.
  Proof.
    induction ts as [|t ts IH]; intros m l l' m' H H'; cbn [gmap emap] in *.
    - injection H as <-. injection H' as <- <-. constructor.
    - destruct (ev' t) as [a| |] eqn:Ea; try discriminate. cbn [gbind] in H. destruct (gmap ev' ts) as [r| |] eqn:Er; try discriminate. cbn [gbind] in H. injection H as <-.
      destruct (evE t m) as [[a'| |] m1] eqn:Ea'; try discriminate. destruct (emap evE ts m1) as [[r'| |] m2] eqn:Er'; try discriminate. cbn [gbind] in H'. injection H' as <- <-.
      constructor; [eapply shape; eauto|eapply IH; eauto].
  Qed.
  Lemma same_args es l : Forall2 (@val_rel N T) es l -> forall k l', Forall2 val_rel es l' -> Forall2 (arg_rel Rv Rt) k l -> Forall2 (arg_rel Rv Rt) k l' -> l = l'.
  Proof.
    induction 1 as [|e a es l He _ IH]; intros k l' H1 H2 H3; inversion H1 as [|x a' xs ls Ha' Hls]; subst; auto.
    inversion H2 as [|c x1 k1 x2 Hc Hk]; subst. inversion H3 as [|x3 x4 x5 x6 Hc' Hk']; subst. f_equal; [|eapply IH; eauto].
    destruct c as [u|y|ys], a as [v|z|zs]; simpl in Hc; try tauto; destruct a' as [v'|z'|zs']; simpl in Hc'; try tauto.
    - destruct e; simpl in *; try tauto. congruence.
    - congruence.
    - f_equal. transitivity ys; [clear - Hc|clear - Hc']; symmetry || idtac.
      + induction Hc; congruence.
      + induction Hc'; congruence.
  Qed.

  (** a failure stays *)
  Definition failed (r : gres (list (arg N T)) E) (r' : gres (arg N T) E) : Prop :=
    match r, r' with GErr e, GErr e' => e = e' | GPanic, GPanic => True | _, _ => False end.
  (** no syntax error is met, or there is no way to go on after one *)
  Definition calm (fuel : nat) (st : pstate unit T) : Prop := error_free skel \/ errors tix skel_parser fuel st = [].
  Lemma calm_step fuel st st' : calm (S fuel) st -> parse_step tix skel_parser st = inl st' -> calm fuel st'.
  Proof. intros [H|H] Hs; [left; auto|right]. cbn [errors] in H. rewrite Hs in H. apply app_eq_nil in H. tauto. Qed.
  (** the trees on the stack cover what has been read *)
  Definition spans (ts : list tree) (pos : nat) : Prop := flat_map leaves ts = seq 0 pos /\ forallb clean ts = true.
  Lemma spans_shift ts pos : spans ts pos -> spans (ts ++ [Leaf pos]) (S pos).
  Proof. intros [H1 H2]. split; [rewrite flat_map_app, H1, seq_S; reflexivity|rewrite forallb_app, H2; reflexivity]. Qed.
  Lemma spans_reduce ts1 ts2 k pos : spans (ts1 ++ ts2) pos -> spans (ts1 ++ [Node k ts2]) pos.
  Proof.
    intros [H1 H2]. rewrite flat_map_app in H1. rewrite forallb_app in H2. split; [rewrite flat_map_app; simpl; rewrite app_nil_r; auto|rewrite forallb_app; simpl; rewrite andb_true_r; auto].
  Qed.
  Definition whole (t : tree) : Prop := twf tix rs w (NT (es_start s)) t /\ leaves t = seq 0 (length w) /\ clean t = true.
  Lemma accept_tree st g ts pos : invat st g ts pos -> spans ts pos -> pos = length w -> g = [NT (es_start s)] -> forall t, ts = [t] -> whole t.
  Proof.
    intros Hinv [Hlv Hcl] Hp -> t ->.
    assert (Htw : twfs tix rs w [NT (es_start s)] [t]).
    { refine (inv_twfs _ _ _ _ _ _ _ _ _ _ _ _ Hinv); [apply (md_len _ _ _ _ Hm)|]. right. simpl. intros [H|[]]; discriminate. }
    inversion Htw; subst. simpl in Hlv, Hcl. rewrite app_nil_r in Hlv. rewrite andb_true_r in Hcl. repeat split; auto.
  Qed.
  Lemma calm_none fuel st g ts pos s' : calm (S fuel) st -> invat st g ts pos -> decides rs (length (gram skel)) (ep_tab P) g (la_at tix w pos) None ->
    ~ noerr (gram skel) -> parse_step tix skel_parser st = inl s' -> False.
  Proof.
    intros [H|H] Hinv Hd Hn Hs; [apply Hn; apply (proj1 (errfree_noerr skel) H)|]. cbn [errors] in H.
    rewrite (err_spec tix skel skel_parser ws ss w Hm _ _ _ _ _ Hinv Hd) in H. discriminate.
  Qed.
  Lemma doomed fuel : forall st g ts pos r m' u it, calm fuel st -> invat st g ts pos -> spans ts pos -> emap evE ts m0 = (r, m') -> (forall l, r <> GOk l) ->
    loop (parse_step tix skel_parser) fuel st = Ok (ROk u, it) ->
    exists t r', whole t /\ evE t m0 = (r', m') /\ failed r r'.
  Proof.
    induction fuel as [|fuel IH]; intros st g ts pos r m' u it Hcalm Hinv Hsp He Hr Hl; [discriminate|]. simpl in Hl.
    destruct (cases tix skel skel_parser ws ss w Hm _ _ _ _ Hinv) as (d & Hd & Hc). destruct d as [[q|k|]|]; cbn [step_case] in Hc.
    - destruct Hc as (_ & _ & s' & Hs & Hi). rewrite Hs in Hl. eapply IH; eauto; [eapply calm_step; eauto|apply spans_shift; auto|]. rewrite emap_app, He. destruct r; auto. exfalso. eapply Hr; eauto.
    - destruct Hc as [(r0 & _ & _ & Hs & _)|(r0 & dd & ts1 & ts2 & args & gen & Hr0 & _ & _ & _ & Ets & _ & Htw & Ha & Hg & Hc)]; [rewrite Hs in Hl; discriminate|].
      destruct (gen args) as [v|e|]; [|destruct Hc as [it' Hc]; rewrite Hc in Hl; discriminate|rewrite Hc in Hl; discriminate].
      destruct Hc as (s' & Hs & Hi). rewrite Hs in Hl. subst ts. eapply IH; eauto; [eapply calm_step; eauto|apply spans_reduce; auto|]. rewrite emap_app in He. rewrite emap_app. destruct (emap evE ts1 m0) as [[b1|e|] m1]; auto.
      cbn [emap]. cbn [eve]. destruct (emap evE ts2 m1) as [[b2|e|] m2]; cbn [gbind] in He; injection He as <- <-; auto. exfalso. eapply Hr; eauto.
    - destruct Hc as (_ & Hp & Hg & t & v & Et & _ & Hs). pose proof (accept_tree _ _ _ _ Hinv Hsp Hp Hg t Et) as H1. subst ts.
      cbn [emap] in He. destruct (evE t m0) as [[a|e|] m1] eqn:E1; cbn [gbind] in He; injection He as <- <-.
      + exfalso. eapply Hr; eauto.
      + exists t, (GErr e). split; auto. split; auto. reflexivity.
      + exists t, GPanic. split; auto. split; auto. exact I.
    - destruct Hc as (_ & [(it' & Hs & _)|(s' & Hs & Hx & _)]); [rewrite Hs in Hl; discriminate|]. exfalso. eapply calm_none; eauto.
  Qed.

  (** the states of the two runs *)
  Record sim (sk : pstate unit T) (st : pstate N T) (m : M) (g : list sym) (ts : list tree) (pos : nat) : Prop := {
    sm_inv : invat sk g ts pos;
    sm_span : spans ts pos;
    sm_rel : srel Rv Rt sk st;
    sm_vals : exists vals, emap evE ts m0 = (GOk vals, m) /\ Forall2 val_rel (map snd (rev (ps_stack st))) vals }.
  (** what the run does, given the evaluation of the tree *)
  Definition run_of (r : gres (arg N T) E * M) (y : res (res (outcome N E * list T) * M)) : Prop :=
    match r with
    | (GOk (NonTerminal v), m') => y = Ok (Ok (ROk v, []), m')
    | (GOk _, _) => False
    | (GErr e, m') => exists it, y = Ok (Ok (RReducer e, it), m')
    | (GPanic, m') => y = Ok (Panic, m')
    end.

  Lemma err_rel sk st m : srel Rv Rt sk st -> step_error tix skel_parser sk = step_error tix (parser_at P m) st.
  Proof.
    intros H. apply (read_rel tix tix Rv Rt kind_eq) in H. unfold step_error. destruct H as [_ H2 _ H4 _ _]. rewrite H2, H4. reflexivity.
  Qed.
  Lemma F2_app_inv {A B} (R : A -> B -> Prop) a1 a2 b1 b2 : Forall2 R (a1 ++ a2) (b1 ++ b2) -> length a1 = length b1 -> Forall2 R a1 b1 /\ Forall2 R a2 b2.
  Proof.
    revert b1. induction a1 as [|x a1 IH]; intros [|y b1] H Hl; simpl in *; try discriminate; [split; auto|]. inversion H; subst. destruct (IH b1) as [A1 A2]; auto.
  Qed.
  (** the reduction of the top of the stack *)
  Lemma vals_split (stk : list (nat * entry N)) vals1 vals2 (es : list (entry N)) n : Forall2 (@val_rel N T) (map snd (rev stk)) (vals1 ++ vals2) ->
    n = length vals2 -> n <= length stk -> Forall2 val_rel (map snd (rev (firstn n stk))) vals2 /\ Forall2 val_rel (map snd (rev (skipn n stk))) vals1.
  Proof.
    intros H Hn Hle. rewrite <- (firstn_skipn n stk), rev_app_distr, map_app in H.
    destruct (F2_app_inv _ _ _ _ _ H) as [A B].
    { pose proof (F2_len _ _ _ H) as Hl. rewrite !app_length, !map_length, !rev_length, firstn_length, skipn_length in Hl. rewrite map_length, rev_length, skipn_length. lia. }
    split; auto.
  Qed.

  Lemma track fuel : forall sk st m g ts pos, calm fuel sk -> sim sk st m g ts pos ->
    match loop (parse_step tix skel_parser) fuel sk with
    | Ok (ROk _, _) => exists t, whole t /\ run_of (evE t m0) (loop (eff_step tix P) fuel (m, st))
    | _ => forall v it m', loop (eff_step tix P) fuel (m, st) <> Ok (Ok (ROk v, it), m')
    end.
  Proof.
    induction fuel as [|fuel IH]; intros sk st m g ts pos Hcalm [Hinv Hsp Hrel (vals & Hev & Hvals)]; [discriminate|]. cbn [loop].
    pose proof (turn_rel tix tix Rv Rt kind_eq skel_parser (parser_at P m) eq_refl sk st Hrel) as HT.
    pose proof (err_rel sk st m Hrel) as Herr.
    destruct (cases tix skel skel_parser ws ss w Hm _ _ _ _ Hinv) as (d & Hd & Hc). rewrite (err_spec tix skel skel_parser ws ss w Hm _ _ _ _ _ Hinv Hd) in Herr.
    assert (Estep : eff_step tix P (m, st) =
      match parse_step tix (parser_at P m) st with
      | inl s' => inl (match step_call tix (parser_at P m) st with Some (k, args) => snd (ecall (ep_gens P) k m args) | None => m end, s')
      | inr r => inr (Ok (r, match step_call tix (parser_at P m) st with Some (k, args) => snd (ecall (ep_gens P) k m args) | None => m end))
      end) by reflexivity.
    rewrite Estep. clear Estep. destruct d as [[q|k|]|]; cbn [step_case] in Hc.
    - destruct Hc as (Hcall & Hlt & s' & Hs & Hi). rewrite Hcall in HT. rewrite Hs in *.
      destruct (step_call tix (parser_at P m) st) as [|] eqn:C2; [destruct HT|].
      pose proof (step_stack tix (parser_at P m) st) as Hst. destruct (parse_step tix (parser_at P m) st) as [st'|]; [|destruct HT].
      specialize (Hst st' (eq_sym Herr) eq_refl). rewrite C2 in Hst. destruct Hst as (qq & e & Hst & He).
      eapply (IH s' st' m); [eapply calm_step; eauto|]. constructor; [exact Hi|apply spans_shift; auto|exact HT|]. destruct (nth_error w pos) as [x|] eqn:Ex; [|apply nth_error_None in Ex; lia].
      exists (vals ++ [Terminal x]). split.
      + rewrite emap_app, Hev. cbn [emap eve]. rewrite Ex. reflexivity.
      + rewrite Hst. simpl. rewrite map_app. apply Forall2_app; auto. constructor; [|constructor]. destruct e; simpl; tauto.
    - destruct Hc as [(r0 & _ & Hcall & Hs & Hw & Hin)|(r0 & dd & ts1 & ts2 & args & gen & Hr0 & _ & _ & Hcall & Ets & _ & Htw & Ha & Hg & Hc)]; rewrite Hcall in HT.
      { rewrite Hs in *. destruct (step_call tix (parser_at P m) st) as [|] eqn:C2; [destruct HT|]. destruct (parse_step tix (parser_at P m) st) as [|[[o i]| |]]; simpl in HT; try tauto. discriminate. }
      destruct (step_call tix (parser_at P m) st) as [[k2 args2]|] eqn:C2; [|destruct HT]. destruct HT as (<- & Hargs & HT). rewrite call_at in HT.
      destruct Hd as (_ & _ & Hk & _).
      assert (Egen : gen args = GOk tt).
      { apply (gens_old skel skel_parser ws ss Hm k gen Hk) in Hg. unfold gens, skel in Hg. cbn [sx_rules] in Hg. rewrite map_map in Hg. rewrite nth_error_map in Hg.
        destruct (nth_error (es_rules s) k); [|discriminate]. simpl in Hg. injection Hg as <-. reflexivity. }
      rewrite Egen in Hc. destruct Hc as (s' & Hs & Hi). rewrite Hs in *. unfold call in HT at 1. rewrite Hg in HT. specialize (HT tt).
      rewrite Ets, emap_app in Hev. destruct (emap evE ts1 m0) as [[vals1|e|] m1] eqn:Ev1; try discriminate.
      destruct (emap evE ts2 m1) as [[vals2|e|] m2] eqn:Ev2; try discriminate. cbn [gbind] in Hev. injection Hev as Hv Hmm. subst vals m2.
      pose proof (shapes _ _ _ _ _ Ha Ev2) as Hsh.
      assert (Hn : length args2 = length vals2) by (apply F2_len in Hargs; apply F2_len in Hsh; lia).
      assert (Hle : length vals2 <= length (ps_stack st)).
      { apply F2_len in Hvals. rewrite map_length, rev_length, app_length in Hvals. lia. }
      destruct (vals_split _ _ _ [] _ Hvals eq_refl Hle) as [Hv2 Hv1].
      assert (Eargs : args2 = vals2).
      { assert (Hca : Forall2 val_rel (map snd (rev (firstn (length vals2) (ps_stack st)))) args2).
        { rewrite <- Hn. clear - C2. unfold step_call in C2.
          assert (Er : ps_stack (ps_read tix st) = ps_stack st) by (unfold ps_read; destruct (ps_buf st); auto; destruct (ps_iter st); auto). rewrite Er in C2.
          destruct (ps_buf (ps_read tix st)) as [|[t i] buf]; [discriminate|]. destruct (act _ _ t) as [[[q|k'|]|]| |]; try discriminate.
          destruct (nth_error (p_rules _) k') as [r|]; [|discriminate]. cbv zeta in C2. destruct (length (ps_stack st) <? length (r_rhs r)) eqn:El; [discriminate|]. apply Nat.ltb_ge in El.
          destruct (reduce_args _ 0 _) as [a| |] eqn:Ea; try discriminate. injection C2 as -> ->. apply args_vals in Ea. pose proof (F2_len _ _ _ Ea) as Hl. rewrite map_length, rev_length, firstn_length in Hl.
          assert (length args2 = length (r_rhs r)) as -> by lia. auto. }
        eapply same_args; [exact Hca|exact Hv2|exact Hargs|exact Hsh]. }
      subst args2.
      destruct (ecall (ep_gens P) k m vals2) as [rk mk] eqn:Ek. cbn [fst snd] in *.
      pose proof (call_fails tix _ _ _ _ C2) as HF. rewrite call_at, Ek in HF. cbn [fst] in HF.
      assert (Enode : evE (Node k ts2) m1 = (gbind rk (fun v => GOk (NonTerminal v)), mk)) by (cbn [eve]; rewrite Ev2, Ek; reflexivity).
      destruct rk as [v|e|].
      + specialize (HT v Egen eq_refl I). pose proof (step_stack tix (parser_at P m) st) as Hst. destruct (parse_step tix (parser_at P m) st) as [st'|]; [|destruct HT].
        specialize (Hst st' (eq_sym Herr) eq_refl). rewrite C2 in Hst. destruct Hst as (qq & i & v' & Hcv & _ & _ & Hst). rewrite call_at, Ek in Hcv. cbn [fst] in Hcv. injection Hcv as <-.
        eapply (IH s' st' mk); [eapply calm_step; eauto|]. constructor; [exact Hi|apply spans_reduce; rewrite <- Ets; auto|exact HT|]. exists (vals1 ++ [NonTerminal v]). split.
        * rewrite emap_app, Ev1. change (emap evE [Node k ts2] m1) with (match evE (Node k ts2) m1 with (GOk b, m3) => let (r, m2) := emap evE [] m3 in (gbind r (fun bs => GOk (b :: bs)), m2) | (GErr e, m3) => (GErr e, m3) | (GPanic, m3) => (GPanic, m3) end).
          rewrite Enode. reflexivity.
        * rewrite Hst. simpl. rewrite map_app. apply Forall2_app; auto. constructor; [reflexivity|constructor].
      + destruct HF as [it HF]. rewrite HF. destruct (loop (parse_step tix skel_parser) fuel s') as [[[u| |u] it']| |] eqn:El; try (intros; discriminate).
        destruct (doomed fuel s' _ _ _ (GErr e) mk u it' (calm_step _ _ _ Hcalm Hs) Hi) as (t & r' & H1 & H3 & H4); auto; [apply spans_reduce; rewrite <- Ets; auto| |discriminate|].
        * rewrite emap_app, Ev1. change (emap evE [Node k ts2] m1) with (match evE (Node k ts2) m1 with (GOk b, m3) => let (r, m2) := emap evE [] m3 in (gbind r (fun bs => GOk (b :: bs)), m2) | (GErr e, m3) => (GErr e, m3) | (GPanic, m3) => (GPanic, m3) end).
          rewrite Enode. reflexivity.
        * exists t. split; auto. rewrite H3. destruct r'; simpl in H4; try tauto. subst. simpl. eauto.
      + rewrite HF. destruct (loop (parse_step tix skel_parser) fuel s') as [[[u| |u] it']| |] eqn:El; try (intros; discriminate).
        destruct (doomed fuel s' _ _ _ GPanic mk u it' (calm_step _ _ _ Hcalm Hs) Hi) as (t & r' & H1 & H3 & H4); auto; [apply spans_reduce; rewrite <- Ets; auto| |discriminate|].
        * rewrite emap_app, Ev1. change (emap evE [Node k ts2] m1) with (match evE (Node k ts2) m1 with (GOk b, m3) => let (r, m2) := emap evE [] m3 in (gbind r (fun bs => GOk (b :: bs)), m2) | (GErr e, m3) => (GErr e, m3) | (GPanic, m3) => (GPanic, m3) end).
          rewrite Enode. reflexivity.
        * exists t. split; auto. rewrite H3. destruct r'; simpl in H4; try tauto. simpl. auto.
    - destruct Hc as (Hcall & Hp & Hg & t & u & Et & _ & Hs). rewrite Hcall in HT. rewrite Hs in *.
      destruct (step_call tix (parser_at P m) st) as [|] eqn:C2; [destruct HT|].
      pose proof (accept_tree _ _ _ _ Hinv Hsp Hp Hg t Et) as H1. exists t. split; auto. subst ts.
      cbn [emap] in Hev. destruct (evE t m0) as [[a|e|] m1]; try discriminate. cbn [gbind] in Hev. injection Hev as <- <-.
      destruct (parse_step tix (parser_at P m1) st) as [|[[o i]| |]] eqn:Es; simpl in HT; try tauto. destruct HT as [Hit Ho]. simpl in Hit, Ho. assert (i = []) as -> by (destruct i; [reflexivity|inversion Hit]). destruct o as [v| |]; try tauto.
      assert (Htop : exists q i, nth_error (ps_stack st) 0 = Some (q, ENon v i)).
      { clear - Es. unfold parse_step in Es. assert (Er : ps_stack (ps_read tix st) = ps_stack st) by (unfold ps_read; destruct (ps_buf st); auto; destruct (ps_iter st); auto). cbv zeta in Es. rewrite Er in Es.
        destruct (ps_buf (ps_read tix st)) as [|[t i] buf]; [discriminate|]. destruct (act _ _ t) as [[[q|k'|]|]| |]; try discriminate.
        - destruct t; discriminate.
        - destruct (nth_error (p_rules _) k') as [r|]; [|discriminate]. destruct (_ <? _); [discriminate|]. destruct (reduce_args _ 0 _) as [x| |]; try discriminate.
          destruct (nth_error _ k') as [gg|]; [|discriminate]. destruct (gg x); try discriminate. destruct (aget _ _ _); [|discriminate]. destruct (aget _ _ _); discriminate.
        - destruct (ps_stack st) as [|[q [v' j|k j|lo hi|]] l]; try discriminate. simpl. injection Es as <- _. eauto.
        - match goal with H : context [recover ?a ?b ?c ?d ?e ?f ?g ?h] |- _ => destruct (recover a b c d e f g h) as [[[[[[cur st'] rc] bk] hd] eh]|] end; [|discriminate].
          destruct (put_back _ _ _ _); try discriminate. destruct (act _ _ _) as [[[q|k|]|]| |]; discriminate. }
      destruct Htop as (q & i & Htop). destruct (ps_stack st) as [|[q' e'] l]; [discriminate|]. simpl in Htop. injection Htop as -> ->.
      simpl in Hvals. rewrite map_app in Hvals. destruct l as [|x l].
      + simpl in Hvals. inversion Hvals as [|e1 a1 l1 l2 Hva _]; subst. destruct a as [v'|y|y]; simpl in Hva; try tauto. subst v'. reflexivity.
      + apply F2_len in Hvals. rewrite !app_length, map_length, rev_length in Hvals. simpl in Hvals. lia.
    - destruct Hc as (Hcall & [(it & Hs & _)|(s' & Hs & Hx & _)]); [|exfalso; eapply calm_none; eauto]. rewrite Hcall in HT. rewrite Hs in *.
      destruct (step_call tix (parser_at P m) st) as [|] eqn:C2; [destruct HT|]. destruct (parse_step tix (parser_at P m) st) as [|[[o i]| |]]; simpl in HT; try tauto; try discriminate.
      destruct HT as [_ Ho]. simpl in Ho. destruct o; try tauto. intros; discriminate.
  Qed.
End Track.

(** ** The order of the states does not matter *)
Section EffHash.
  Context {M N T E : Type} (tix : T -> nat).
  Variables (rs : list rule) (sr : nat) (p1 p2 : lr_parser) (gs : list (ereducer M N T E)).
  Hypothesis H1 : canonical rs sr p1.
  Hypothesis H2 : canonical rs sr p2.
  Notation P1 := (mk_ep p1 gs).
  Notation P2 := (mk_ep p2 gs).
  Lemma hash_run fuel : forall m s1 s2, same_ps p1 p2 s1 s2 ->
    loop (eff_step tix P1) fuel (m, s1) = loop (eff_step tix P2) fuel (m, s2) /\ ecalls tix P1 fuel (m, s1) = ecalls tix P2 fuel (m, s2).
  Proof.
    induction fuel as [|fuel IH]; intros m s1 s2 Hs; [auto|]. cbn [loop ecalls fst snd]. unfold eff_step. fold (eff_step tix P1) (eff_step tix P2).
    destruct (same_step tix rs sr p1 p2 (map (fun (g : ereducer M N T E) args => fst (g m args)) gs) H1 H2 s1 s2 Hs) as (A & _ & C).
    unfold parser_at. cbn [ep_tab ep_gens]. rewrite A. unfold same_turn in C.
    destruct (parse_step tix _ s1) as [s1'|r1]; destruct (parse_step tix _ s2) as [s2'|r2]; try contradiction; [|subst; auto].
    match goal with |- context [loop _ fuel (?x, s1')] => destruct (IH x s1' s2' C) as [-> ->] end. auto.
  Qed.
  Lemma hash_parse fuel m w : eff_parse tix P1 fuel m w = eff_parse tix P2 fuel m w /\ eff_calls tix P1 fuel m w = eff_calls tix P2 fuel m w.
  Proof. unfold eff_parse, eff_calls, eff_init. apply hash_run. apply (same_init p1 p2 (map (fun (g : ereducer M N T E) args => fst (g m args)) gs)). Qed.
End EffHash.

(** ** Making parsers *)
Section Making.
  Context {M N T E : Type} (nix : N -> nat) (tix : T -> nat).
  Lemma gram_at (s : esyntax M N T E) m : gram (syntax_at s m) = map er_rule (es_rules s).
  Proof. unfold gram, syntax_at. cbn [sx_rules]. rewrite map_map. reflexivity. Qed.
  Lemma gram_skel (s : esyntax M N T E) : gram (skel s) = map er_rule (es_rules s).
  Proof. unfold gram, skel. cbn [sx_rules]. rewrite map_map. reflexivity. Qed.
  Lemma skel_makes e (s : esyntax M N T E) P ws : eff_makes e s P ws -> makes e (skel s) (skel_parser s P) ws /\ ep_gens P = egens s ++ [fun m _ => (GPanic, m)].
  Proof.
    intros [He [fuel Hf]]. unfold eff_new in Hf. destruct (lr_new e fuel (map er_rule (es_rules s)) (es_start s)) as [[p w0]| |] eqn:El; try discriminate.
    simpl in Hf. injection Hf as <- <-. split; [|reflexivity]. split; auto. exists fuel. unfold lr1_new. fold (gram (skel s)). rewrite gram_skel. unfold skel at 1. cbn [sx_start]. rewrite El. reflexivity.
  Qed.
  Lemma skel_made e (s : esyntax M N T E) P ws m : api_syntax nix tix (syntax_at s m) -> eff_makes e s P ws ->
    exists ss, made (skel s) (skel_parser s P) ws ss.
  Proof.
    intros Ha Hmk. apply skel_makes in Hmk as [Hmk _]. eapply no_eoi_made; [|exact Hmk]. apply api_no_eoi in Ha. rewrite gram_skel. rewrite gram_at in Ha. auto.
  Qed.
  (** at every state the parser is one of the pure model *)
  Lemma makes_at e (s : esyntax M N T E) P ws m : eff_makes e s P ws -> makes e (syntax_at s m) (parser_at P m) ws.
  Proof.
    intros [He [fuel Hf]]. split; auto. exists fuel. unfold eff_new in Hf. unfold lr1_new. fold (gram (syntax_at s m)). rewrite gram_at. unfold syntax_at at 1. cbn [sx_start].
    destruct (lr_new e fuel (map er_rule (es_rules s)) (es_start s)) as [[p w0]| |]; try discriminate. simpl in Hf. injection Hf as <- <-. simpl. unfold parser_at. cbn [ep_tab ep_gens].
    rewrite map_app, !map_map. reflexivity.
  Qed.

  Variables (rules : list rule) (gs extra : list (ereducer M N T E)) (input : list T).
  Hypothesis Hlen : length gs = length rules.
  Lemma eve_aug : (forall X t, twf tix rules input X t -> forall m, eve (gs ++ extra) input t m = eve gs input t m) /\
    (forall l ts, twfs tix rules input l ts -> forall m, emap (eve (gs ++ extra) input) ts m = emap (eve gs input) ts m).
  Proof.
    apply (twf_twfs_ind T tix rules input); auto.
    - intros k r ts Hr _ IH m. cbn [eve]. rewrite IH. destruct (emap (eve gs input) ts m) as [[args| |] m1]; auto.
      unfold ecall. rewrite nth_error_app1; auto. apply nth_error_Some_lt in Hr. lia.
    - intros X l t ts _ IH1 _ IH2 m. cbn [emap]. rewrite IH1. destruct (eve gs input t m) as [[a| |] m1]; auto. rewrite IH2. reflexivity.
  Qed.
End Making.

(** ** The theorems on one run *)
Section EffTop.
  Context {M N T E : Type} (nix : N -> nat) (tix : T -> nat).
  Variables (e : lr_env) (s : esyntax M N T E) (P : eparser M N T E) (ws : list warning) (m0 : M) (w : list T).
  Hypothesis Ha : api_syntax nix tix (syntax_at s m0).
  Hypothesis Hmk : eff_makes e s P ws.

  Lemma rel_init : srel (fun (_ : unit) (_ : N) => True) (@eq T) (ps_init (skel_parser s P) w) (ps_init (parser_at P m0) w).
  Proof. apply init_rel; [reflexivity|]. induction w; constructor; auto. Qed.
  Lemma sim_init ss : sim tix s P ss w m0 (ps_init (skel_parser s P) w) (ps_init (parser_at P m0) w) m0 [] [] 0.
  Proof.
    constructor.
    - apply (at_init tix (skel s) (skel_parser s P) ss w).
    - split; reflexivity.
    - apply rel_init.
    - exists []. split; [reflexivity|constructor].
  Qed.
  Lemma whole_proper ss t : made (skel s) (skel_parser s P) ws ss -> whole tix s ss w t -> proper_tree tix (syntax_at s m0) w t /\ forall m, eve (ep_gens P) w t m = eve (egens s) w t m.
  Proof.
    intros Hm (H1 & H2 & H3). apply (twf_aug tix _ _ _ w (md_fresh _ _ _ _ Hm)) in H1. rewrite gram_skel in H1.
    split; [split; [split; auto; rewrite gram_at; exact H1|auto]|]. intros m. rewrite (proj2 (skel_makes _ _ _ _ Hmk)).
    eapply eve_aug; [|exact H1]. unfold egens. rewrite !map_length. reflexivity.
  Qed.

  Lemma eff_sound fuel v it m' : error_free (syntax_at s m0) -> eff_parse tix P fuel m0 w = Ok (Ok (ROk v, it), m') ->
    exists t, proper_tree tix (syntax_at s m0) w t /\ eve (egens s) w t m0 = (GOk (NonTerminal v), m').
  Proof.
    intros Hef Hp. destruct (skel_made nix tix e s P ws m0 Ha Hmk) as [ss Hm].
    assert (Hc : calm tix s P fuel (ps_init (skel_parser s P) w)) by (left; unfold error_free in *; rewrite gram_skel; rewrite gram_at in Hef; auto).
    pose proof (track tix s P ws ss w m0 Hm fuel _ _ _ _ _ _ Hc (sim_init ss)) as H. unfold eff_parse, eff_init in Hp.
    destruct (loop (parse_step tix (skel_parser s P)) fuel (ps_init (skel_parser s P) w)) as [[[u| |u] it']| |]; try (exfalso; eapply H; eauto; fail).
    destruct H as (t & Ht & Hr). destruct (whole_proper ss t Hm Ht) as [Ht1 Ht2]. exists t. split; auto. rewrite <- Ht2.
    rewrite Hp in Hr. destruct (eve (ep_gens P) w t m0) as [[[v'|y|y]|x|] m1]; simpl in Hr; try contradiction; try discriminate.
    - injection Hr as <- _ <-. reflexivity.
    - destruct Hr as [i Hr]. discriminate.
  Qed.

  (** the parser with reducers that do nothing accepts *)
  Lemma skel_accepts ss t : made (skel s) (skel_parser s P) ws ss -> ws = [] -> ~ cyclic (gram (skel s)) (sx_start (skel s)) -> proper_tree tix (skel s) w t ->
    exists fuel u it, loop (parse_step tix (skel_parser s P)) fuel (ps_init (skel_parser s P) w) = Ok (ROk u, it) /\ errors tix (skel_parser s P) fuel (ps_init (skel_parser s P) w) = [].
  Proof.
    intros Hm Hw Hnc0 Ht0.
    destruct (made_tree tix (skel s) (skel_parser s P) ws ss w Hm t Hw Ht0) as (x & L & [fuel Hl] & [[Hr _]|[Hx _]]); [|contradiction].
    assert (Ex : exists u it, x = Ok (ROk u, it)).
    { clear - Hr Ht0. destruct Ht0 as [[A _] _]. assert (G : forall X t0, twf tix (gram (skel s)) w X t0 -> exists a, ev (gens (skel s)) w t0 = GOk a).
      { assert (G2 : (forall X t0, twf tix (gram (skel s)) w X t0 -> exists a, ev (gens (skel s)) w t0 = GOk a) /\ (forall l ts, twfs tix (gram (skel s)) w l ts -> exists a, gmap (ev (gens (skel s)) w) ts = GOk a)).
        { apply (twf_twfs_ind T tix (gram (skel s)) w).
          - intros i y Hy. cbn [ev]. rewrite Hy. eauto.
          - intros lo hi _ _. cbn [ev]. eauto.
          - intros k r ts Hk _ [args IH]. cbn [ev]. rewrite IH. cbn [gbind]. unfold call, gens, skel. cbn [sx_rules]. rewrite map_map, nth_error_map.
            rewrite gram_skel, nth_error_map in Hk. destruct (nth_error (es_rules s) k); [|discriminate]. simpl. eauto.
          - simpl. eauto.
          - intros X l t0 ts _ [a IH1] _ [b IH2]. cbn [gmap]. rewrite IH1, IH2. simpl. eauto. }
        apply G2. }
      destruct (G _ _ A) as [a Ea]. destruct t as [i|lo hi|k ts]; [inversion A|inversion A|]. rewrite Ea in Hr. cbn [ev] in Ea.
      destruct (gmap (ev (gens (skel s)) w) ts) as [args| |]; try discriminate. cbn [gbind] in Ea. destruct (call (gens (skel s)) k args) as [u| |]; try discriminate. injection Ea as <-. simpl in Hr. eauto. }
    destruct Ex as (u & it & ->). destruct (Hl fuel (le_n _)) as (H1 & _ & H3). eauto 10.
  Qed.

  Lemma eff_complete t : ws = [] -> ~ cyclic (map er_rule (es_rules s)) (es_start s) -> proper_tree tix (syntax_at s m0) w t ->
    eff_yields tix P m0 w (eve (egens s) w t m0).
  Proof.
    intros Hw Hnc Ht. destruct (skel_made nix tix e s P ws m0 Ha Hmk) as [ss Hm].
    assert (Ht0 : proper_tree tix (skel s) w t).
    { destruct Ht as [[A B] C]. rewrite gram_at in A. split; [split; auto; rewrite gram_skel; exact A|auto]. }
    assert (Hnc0 : ~ cyclic (gram (skel s)) (sx_start (skel s))) by (rewrite gram_skel; auto).
    destruct (skel_accepts ss t Hm Hw Hnc0 Ht0) as (fuel & u & it & H1 & H3).
    pose proof (track tix s P ws ss w m0 Hm fuel _ _ _ _ _ _ (or_intror H3) (sim_init ss)) as H. rewrite H1 in H. destruct H as (t' & Ht' & Hr').
    destruct (whole_proper ss t' Hm Ht') as [Ht1 Ht2].
    assert (t' = t).
    { apply (unique_tree tix (skel s) (skel_parser s P) ws ss w Hm); auto. destruct Ht1 as [[A B] C]. rewrite gram_at in A. split; [split; auto; rewrite gram_skel; exact A|auto]. }
    subst t'. rewrite Ht2 in Hr'. unfold run_of in Hr'. unfold eff_yields, eff_returns, eff_panics, eff_parse, eff_init.
    destruct (eve (egens s) w t m0) as [[[v|y|y]|x|] m']; try contradiction; eauto.
  Qed.

  (** a run ends when one without effects does *)
  Lemma ends_too fuel : forall m sk st, srel (fun (_ : unit) (_ : N) => True) (@eq T) sk st -> loop (parse_step tix (skel_parser s P)) fuel sk <> OutOfFuel ->
    exists r m', loop (eff_step tix P) fuel (m, st) = Ok (r, m').
  Proof.
    assert (Hk : forall x y : T, x = y -> tix x = tix y) by congruence.
    induction fuel as [|fuel IH]; intros m sk st Hrel Hn; [exfalso; apply Hn; reflexivity|]. cbn [loop] in *.
    pose proof (turn_rel tix tix (fun (_ : unit) (_ : N) => True) (@eq T) Hk (skel_parser s P) (parser_at P m) eq_refl sk st Hrel) as HT.
    unfold eff_step at 1. destruct (step_call tix (skel_parser s P) sk) as [[k args]|] eqn:C1; destruct (step_call tix (parser_at P m) st) as [[k2 args2]|] eqn:C2; try contradiction.
    - destruct HT as (<- & _ & HT). pose proof (call_fails tix _ _ _ _ C2) as HF. pose proof (call_fails tix _ _ _ _ C1) as HF1.
      destruct (call (pr_gens (parser_at P m)) k args2) as [v|x|]; [|destruct HF as [it ->]; eauto|rewrite HF; eauto].
      destruct (call (pr_gens (skel_parser s P)) k args) as [u|x|] eqn:Ecall.
      + specialize (HT u v eq_refl eq_refl I). destruct (parse_step tix (skel_parser s P) sk) as [sk'|r]; destruct (parse_step tix (parser_at P m) st) as [st'|r']; try contradiction; [|eauto].
        eapply IH; eauto.
      + exfalso. unfold call in Ecall. destruct (nth_error (pr_gens (skel_parser s P)) k) as [g|] eqn:Eg; [|discriminate]. apply nth_error_In in Eg. unfold skel_parser in Eg. cbn [pr_gens] in Eg.
        apply in_app_or in Eg as [Eg|[<-|[]]]; [|discriminate]. unfold gens, skel in Eg. cbn [sx_rules] in Eg. rewrite map_map in Eg. apply in_map_iff in Eg as (y & <- & _). discriminate.
      + unfold call in Ecall. destruct (parse_step tix (parser_at P m) st) as [st'|r'] eqn:Es; [|eauto]. exfalso.
        assert (Hlt : k < length (p_rules (ep_tab P))).
        { unfold step_call in C1. destruct (ps_buf _) as [|[t i] buf]; [discriminate|]. destruct (act _ _ t) as [[[q|k'|]|]| |]; try discriminate. cbn [skel_parser pr_tab] in C1.
          destruct (nth_error (p_rules (ep_tab P)) k') as [r|] eqn:Er; [|discriminate]. cbv zeta in C1. destruct (_ <? _); [discriminate|]. destruct (reduce_args _ 0 _); try discriminate. injection C1 as -> _. eapply nth_error_Some_lt; eauto. }
        destruct (skel_made nix tix e s P ws m0 Ha Hmk) as [ss Hm]. pose proof (can_rules _ _ _ (md_can _ _ _ _ Hm)) as Hru. cbn [skel_parser pr_tab] in Hru.
        pose proof (md_len _ _ _ _ Hm) as Hlen. rewrite <- Hru in Hlen.
        destruct (nth_error (pr_gens (skel_parser s P)) k) as [g|] eqn:Eg; [|apply nth_error_None in Eg; rewrite Hlen in Eg; cbn [skel_parser pr_tab] in Eg; lia].
        destruct (Nat.eq_dec k (length (gens (skel s)))) as [->|Hne].
        * (* the reducer of the added rule *)
          (* the effectful one panics as well *)
          pose proof (call_fails tix _ _ _ _ C2) as HF2. rewrite call_at in HF2. unfold ecall in HF2. rewrite (proj2 (skel_makes _ _ _ _ Hmk)) in HF2.
          assert (Hgl : length (gens (skel s)) = length (egens s)) by (unfold gens, egens, skel; cbn [sx_rules]; rewrite !map_length; reflexivity).
          rewrite Hgl, nth_error_app2, Nat.sub_diag in HF2 by lia. simpl in HF2. congruence.
        * unfold skel_parser in Eg. cbn [pr_gens] in Eg. assert (k < length (gens (skel s))).
          { apply nth_error_Some_lt in Eg. rewrite app_length in Eg. simpl in Eg. lia. }
          rewrite nth_error_app1 in Eg by auto. apply nth_error_In in Eg. unfold gens, skel in Eg. cbn [sx_rules] in Eg. rewrite map_map in Eg. apply in_map_iff in Eg as (y & <- & _). discriminate.
    - destruct (parse_step tix (skel_parser s P) sk) as [sk'|r]; destruct (parse_step tix (parser_at P m) st) as [st'|r']; try contradiction; [|eauto]. eapply IH; eauto.
  Qed.
  Lemma eff_ends : (ws = [] /\ productive (map er_rule (es_rules s)) \/ loop_free (map er_rule (es_rules s)) (es_start s)) /\
      (error_free (syntax_at s m0) \/ productive (map er_rule (es_rules s)) /\ errors_apart (syntax_at s m0)) \/
    ws = [] /\ derivable tix (syntax_at s m0) w ->
    exists fuel r m', eff_parse tix P fuel m0 w = Ok (r, m').
  Proof.
    intros H. destruct (skel_made nix tix e s P ws m0 Ha Hmk) as [ss Hm].
    assert (G : exists fuel, loop (parse_step tix (skel_parser s P)) fuel (ps_init (skel_parser s P) w) <> OutOfFuel).
    { destruct H as [[H1 H2]|[Hw Hd]].
      - assert (Hwf : forall t, well_founded (rstep (gram (skel s)) (sx_start (skel s)) ss t)).
        { destruct H1 as [[Hw Hp]|Hlf].
          - apply rstep_wf; [exact (md_fresh _ _ _ _ Hm)|exact (cf_of (skel s) (skel_parser s P) ws ss Hm Hw)|rewrite gram_skel; exact Hp].
          - apply loop_free_wf; [exact (md_fresh _ _ _ _ Hm)|rewrite gram_skel; exact Hlf]. }
        assert (K : exists r, ends (parse_step tix (skel_parser s P)) (ps_init (skel_parser s P) w) r /\ r <> OutOfFuel).
        { destruct H2 as [Hef|[Hp Hap]].
          - assert (Hef' : error_free (skel s)) by (unfold error_free in *; rewrite gram_skel; rewrite gram_at in Hef; exact Hef).
            apply (parse_ends tix (gram (skel s)) (sx_start (skel s)) ss (skel_parser s P) w (md_fresh _ _ _ _ Hm) (md_eoi _ _ _ _ Hm) (md_can _ _ _ _ Hm) (md_len _ _ _ _ Hm) Hef' Hwf).
          - assert (Hp' : productive (gram (skel s))) by (rewrite gram_skel; auto).
            assert (Hap' : errors_apart (skel s)) by (unfold errors_apart in *; rewrite gram_skel; rewrite gram_at in Hap; exact Hap).
            apply (stops_all tix (skel s) (skel_parser s P) ws ss w Hm Hwf Hp' Hap' _ [] [] 0 (at_init tix (skel s) (skel_parser s P) ss w)). }
        destruct K as (r & [f Hr] & Hn). exists f. rewrite Hr by auto. auto.
      - assert (Hd' : derivable tix (skel s) w) by (unfold derivable in *; rewrite gram_skel; rewrite gram_at in Hd; exact Hd).
        apply derivable_tree in Hd' as [t Ht]. destruct (made_tree tix (skel s) (skel_parser s P) ws ss w Hm t Hw Ht) as (x & L & [f Hl] & Hx). exists f.
        destruct (Hl f (le_n _)) as (-> & _). destruct Hx as [[Hx _]|[_ [v ->]]]; [|discriminate].
        destruct (ev (gens (skel s)) w t) as [[v|y|l]|y|]; simpl in Hx; try contradiction; try (subst; discriminate). destruct Hx as [it ->]. discriminate. }
    destruct G as [fuel G]. exists fuel. eapply ends_too; [apply rel_init|exact G].
  Qed.
End EffTop.
