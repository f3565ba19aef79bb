(** * Property C98: lists and options in a grammar *)
From Coq Require Import List Arith Lia Bool Sorted.
From Verif Require Import Lib Grammar LrModel LrSpec LrTop ParseModel Trees ParseSpec ParseInv ParseTop ParseMore ParseExamples PropParse PropRecover StmtSpec PropStmt ValueProofs NestSpec PropNest LoopListSpec.
Import ListNotations.

Section Shapes.
  Context {N T E : Type} (tix : T -> nat) (rules : list (crule N T E)).
  Notation part := (part tix rules).
  Notation parts := (parts tix rules).

  Lemma parts_app l u args : parts l u args -> forall l' u' args', parts l' u' args' -> parts (l ++ l') (u ++ u') (args ++ args').
  Proof. induction 1; simpl; auto. intros. rewrite <- app_assoc. constructor; auto. Qed.
  Lemma parts_app_inv l l' : forall u args, parts (l ++ l') u args -> exists u1 u2 a1 a2, u = u1 ++ u2 /\ args = a1 ++ a2 /\ parts l u1 a1 /\ parts l' u2 a2.
  Proof.
    induction l as [|X l IH]; intros u args H; simpl in H; [exists [], u, [], args; repeat split; auto; constructor|].
    inversion H as [|X0 l0 u1 u2 a args2 H1 H2]; subst. destruct (IH _ _ H2) as (v1 & v2 & b1 & b2 & -> & -> & H3 & H4).
    exists (u1 ++ v1), v2, (a :: b1), b2. rewrite app_assoc. repeat split; auto. constructor; auto.
  Qed.
  Lemma parts_one X u args : parts [X] u args <-> exists a, args = [a] /\ part X u a.
  Proof.
    split.
    - intros H. inversion H as [|X0 l0 u1 u2 a args2 H1 H2]; subst. inversion H2; subst. rewrite app_nil_r. eauto.
    - intros (a & -> & H). rewrite <- (app_nil_r u). constructor; auto. constructor.
  Qed.
  Lemma part_nt L u a : part (NT L) u a <-> exists v, a = NonTerminal v /\ part (NT L) u (NonTerminal v).
  Proof. split; [intros H; inversion H; subst; eauto|intros (v & -> & H); auto]. Qed.
  Lemma part_rules L r0 r1 u v : only_rules rules L r0 r1 -> r_lhs (cr_rule r0) = L -> r_lhs (cr_rule r1) = L ->
    (part (NT L) u (NonTerminal v) <-> (exists args, parts (r_rhs (cr_rule r0)) u args /\ cr_gen r0 args = GOk v) \/ (exists args, parts (r_rhs (cr_rule r1)) u args /\ cr_gen r1 args = GOk v)).
  Proof.
    intros (H0 & H1 & Ho) E0 E1. split.
    - intros H. inversion H as [| |r u0 args v0 Hr Hp Hg El]; subst. destruct (Ho r Hr El) as [->| ->]; eauto.
    - intros [(args & Hp & Hg)|(args & Hp & Hg)]; [rewrite <- E0|rewrite <- E1]; eapply part_rule; eauto.
  Qed.

  Lemma left_snoc (g : reducer N T E) v0 l args : from_left g v0 (l ++ [args]) = gbind (from_left g v0 l) (fun v => g (NonTerminal v :: args)).
  Proof. unfold from_left. rewrite fold_left_app. reflexivity. Qed.

  (** one derivation inside another: induction *)
  Lemma left_list L r0 r1 m : only_rules rules L r0 r1 -> r_lhs (cr_rule r0) = L -> r_lhs (cr_rule r1) = L -> r_rhs (cr_rule r1) = NT L :: m ->
    forall X u a, part X u a -> X = NT L -> exists u0 u1 args0 v0 l v, a = NonTerminal v /\ u = u0 ++ u1 /\ parts (r_rhs (cr_rule r0)) u0 args0 /\ cr_gen r0 args0 = GOk v0 /\ repeated tix rules m u1 l /\ from_left (cr_gen r1) v0 l = GOk v.
  Proof.
    intros Ho E0 E1 Er. set (Q := fun (X : sym) (u : list T) (a : arg N T) => X = NT L -> exists u0 u1 args0 v0 l v, a = NonTerminal v /\ u = u0 ++ u1 /\ parts (r_rhs (cr_rule r0)) u0 args0 /\ cr_gen r0 args0 = GOk v0 /\ repeated tix rules m u1 l /\ from_left (cr_gen r1) v0 l = GOk v).
    set (Q1 := fun (l : list sym) (u : list T) (args : list (arg N T)) => parts l u args /\ match l, args with X :: l', a :: args' => exists u1 u2, u = u1 ++ u2 /\ Q X u1 a /\ parts l' u2 args' | _, _ => True end).
    assert (G : (forall X u a, part X u a -> Q X u a) /\ (forall l u args, parts l u args -> Q1 l u args)); [|exact (proj1 G)].
    apply part_parts_ind; unfold Q, Q1; try discriminate.
    - intros r u args v Hr _ [Hp Hi] Hg El. injection El as El. destruct Ho as (H0 & H1 & Ho). destruct (Ho r Hr El) as [->| ->].
      + exists u, [], args, v, [], v. rewrite app_nil_r. repeat (split; auto). all: try (exists []; split; auto).
      + rewrite Er in Hi. destruct args as [|a args]; [rewrite Er in Hp; inversion Hp|]. destruct Hi as (u1 & u2 & -> & Hq & Hm). destruct (Hq eq_refl) as (w0 & w1 & args0 & v0 & l & v' & -> & -> & A & B & (us & -> & C) & D).
        exists w0, (concat us ++ u2), args0, v0, (l ++ [args]), v. split; auto. split; [rewrite app_assoc; auto|]. split; auto. split; auto. split.
        * exists (us ++ [u2]). rewrite concat_app. simpl. rewrite app_nil_r. split; auto. apply Forall2_app; auto.
        * rewrite left_snoc, D. exact Hg.
    - split; [constructor|auto].
    - intros X l u u' a args Hp Hq _ [Hps _]. split; [constructor; auto|]. exists u, u'. auto.
  Qed.
  Lemma left_list_back L r0 r1 m : only_rules rules L r0 r1 -> r_lhs (cr_rule r0) = L -> r_lhs (cr_rule r1) = L -> r_rhs (cr_rule r1) = NT L :: m ->
    forall u0 args0 v0, parts (r_rhs (cr_rule r0)) u0 args0 -> cr_gen r0 args0 = GOk v0 -> forall us l, Forall2 (parts m) us l -> forall v, from_left (cr_gen r1) v0 l = GOk v -> part (NT L) (u0 ++ concat us) (NonTerminal v).
  Proof.
    intros Ho E0 E1 Er u0 args0 v0 Hp Hg us. induction us as [|u us IH] using rev_ind; intros l Hf v Hv.
    - inversion Hf; subst. simpl in *. rewrite app_nil_r. unfold from_left in Hv. simpl in Hv. injection Hv as <-. apply (part_rules (r_lhs (cr_rule r0)) r0 r1); auto. left. eauto.
    - apply Forall2_app_inv_l in Hf as (l1 & l2 & H1 & H2 & ->). inversion H2 as [|? args ? l3 H3 H4]; subst. inversion H4; subst. rewrite left_snoc in Hv. destruct (from_left (cr_gen r1) v0 l1) as [v'| |] eqn:Ev; try discriminate. simpl in Hv.
      rewrite concat_app. simpl. rewrite app_nil_r, app_assoc. apply (part_rules (r_lhs (cr_rule r0)) r0 r1); auto. right. exists (NonTerminal v' :: args). split; auto. rewrite Er. constructor; eauto.
  Qed.
  Lemma right_list L r0 r1 m : only_rules rules L r0 r1 -> r_lhs (cr_rule r0) = L -> r_lhs (cr_rule r1) = L -> r_rhs (cr_rule r1) = m ++ [NT L] ->
    forall X u a, part X u a -> X = NT L -> exists u0 u1 args0 v0 l v, a = NonTerminal v /\ u = u1 ++ u0 /\ parts (r_rhs (cr_rule r0)) u0 args0 /\ cr_gen r0 args0 = GOk v0 /\ repeated tix rules m u1 l /\ from_right (cr_gen r1) v0 l = GOk v.
  Proof.
    intros Ho E0 E1 Er. set (Q := fun (X : sym) (u : list T) (a : arg N T) => X = NT L -> exists u0 u1 args0 v0 l v, a = NonTerminal v /\ u = u1 ++ u0 /\ parts (r_rhs (cr_rule r0)) u0 args0 /\ cr_gen r0 args0 = GOk v0 /\ repeated tix rules m u1 l /\ from_right (cr_gen r1) v0 l = GOk v).
    set (Q1 := fun (l : list sym) (u : list T) (args : list (arg N T)) => parts l u args /\ forall l', l = l' ++ [NT L] -> exists args' a u1 u2, args = args' ++ [a] /\ u = u1 ++ u2 /\ parts l' u1 args' /\ Q (NT L) u2 a).
    assert (G : (forall X u a, part X u a -> Q X u a) /\ (forall l u args, parts l u args -> Q1 l u args)); [|exact (proj1 G)].
    apply part_parts_ind; unfold Q, Q1; try discriminate.
    - intros r u args v Hr _ [Hp Hi] Hg El. injection El as El. destruct Ho as (H0 & H1 & Ho). destruct (Ho r Hr El) as [->| ->].
      + exists u, [], args, v, [], v. repeat (split; auto). all: try (exists []; split; auto).
      + destruct (Hi _ Er) as (args' & a & u1 & u2 & -> & -> & Hm & Hq). destruct (Hq eq_refl) as (w0 & w1 & args0 & v0 & l & v' & -> & -> & A & B & (us & -> & C) & D).
        exists w0, (u1 ++ concat us), args0, v0, (args' :: l), v. split; auto. split; [rewrite app_assoc; auto|]. split; auto. split; auto. split.
        * exists (u1 :: us). split; auto.
        * simpl. rewrite D. exact Hg.
    - split; [constructor|]. intros l' F. destruct l'; discriminate.
    - intros X l u u' a args Hp Hq _ [Hps Hi]. split; [constructor; auto|]. intros l' El. destruct l' as [|Y l']; simpl in El.
      + injection El as -> ->. inversion Hps; subst. exists [], a, [], u. rewrite app_nil_r. repeat (split; auto). all: try constructor.
      + injection El as <- ->. destruct (Hi l' eq_refl) as (args' & b & u1 & u2 & -> & -> & A & B). exists (a :: args'), b, (u ++ u1), u2. rewrite app_assoc. repeat split; auto. constructor; auto.
  Qed.
  Lemma right_list_back L r0 r1 m : only_rules rules L r0 r1 -> r_lhs (cr_rule r0) = L -> r_lhs (cr_rule r1) = L -> r_rhs (cr_rule r1) = m ++ [NT L] ->
    forall u0 args0 v0, parts (r_rhs (cr_rule r0)) u0 args0 -> cr_gen r0 args0 = GOk v0 -> forall us l, Forall2 (parts m) us l -> forall v, from_right (cr_gen r1) v0 l = GOk v -> part (NT L) (concat us ++ u0) (NonTerminal v).
  Proof.
    intros Ho E0 E1 Er u0 args0 v0 Hp Hg us l Hf. induction Hf as [|u args us l H1 _ IH]; intros v Hv; simpl in *.
    - injection Hv as <-. apply (part_rules L r0 r1); auto. left. eauto.
    - destruct (from_right (cr_gen r1) v0 l) as [v'| |]; try discriminate. simpl in Hv. rewrite <- app_assoc. apply (part_rules L r0 r1); auto. right. exists (args ++ [NonTerminal v']). split; auto. rewrite Er. apply parts_app; auto. apply parts_one. eauto.
  Qed.
End Shapes.

(** ** L ::= b | L m: the reducer of the second rule is applied from left to right *)
Theorem C98_left : forall N T E (tix : T -> nat) (rules : list (crule N T E)) L b m g0 g1 u v,
  only_rules rules L (mk_crule (mk_rule L b) g0) (mk_crule (mk_rule L (NT L :: m)) g1) ->
  (part tix rules (NT L) u (NonTerminal v) <->
   exists u0 u1 args0 v0 l, u = u0 ++ u1 /\ parts tix rules b u0 args0 /\ g0 args0 = GOk v0 /\ repeated tix rules m u1 l /\ from_left g1 v0 l = GOk v).
Proof.
  intros N T E tix rules L b m g0 g1 u v Ho. split.
  - intros H. destruct (left_list tix rules L _ _ m Ho eq_refl eq_refl eq_refl _ _ _ H eq_refl) as (u0 & u1 & args0 & v0 & l & v' & Ev & A). injection Ev as <-. exists u0, u1, args0, v0, l. exact A.
  - intros (u0 & u1 & args0 & v0 & l & -> & A & B & (us & -> & C) & D). exact (left_list_back tix rules L _ _ m Ho eq_refl eq_refl eq_refl u0 args0 v0 A B us l C v D).
Qed.
Print Assumptions C98_left.
(** ** L ::= b | m L: ... from right to left *)
Theorem C98_right : forall N T E (tix : T -> nat) (rules : list (crule N T E)) L b m g0 g1 u v,
  only_rules rules L (mk_crule (mk_rule L b) g0) (mk_crule (mk_rule L (m ++ [NT L])) g1) ->
  (part tix rules (NT L) u (NonTerminal v) <->
   exists u0 u1 args0 v0 l, u = u1 ++ u0 /\ parts tix rules b u0 args0 /\ g0 args0 = GOk v0 /\ repeated tix rules m u1 l /\ from_right g1 v0 l = GOk v).
Proof.
  intros N T E tix rules L b m g0 g1 u v Ho. split.
  - intros H. destruct (right_list tix rules L _ _ m Ho eq_refl eq_refl eq_refl _ _ _ H eq_refl) as (u0 & u1 & args0 & v0 & l & v' & Ev & A). injection Ev as <-. exists u0, u1, args0, v0, l. exact A.
  - intros (u0 & u1 & args0 & v0 & l & -> & A & B & (us & -> & C) & D). exact (right_list_back tix rules L _ _ m Ho eq_refl eq_refl eq_refl u0 args0 v0 A B us l C v D).
Qed.
Print Assumptions C98_right.

(** ** Vectors: L ::= (nothing) | L X with a reducer that pushes, or L ::= (nothing) | X L with one that inserts at the front, give the
    elements in the order of the text; the empty list for no tokens only if X takes no empty text *)
Theorem C98_vector : forall N T E (tix : T -> nat) (rules : list (crule N T E)) L X g0 g1 (A : Type) (view : N -> list A) (elem : arg N T -> A) u v (left : bool),
  only_rules rules L (mk_crule (mk_rule L []) g0) (mk_crule (mk_rule L (if left then [NT L; X] else [X; NT L])) g1) ->
  (forall v, g0 [] = GOk v -> view v = []) ->
  (forall a v v', g1 (if left then [NonTerminal v; a] else [a; NonTerminal v]) = GOk v' -> view v' = if left then view v ++ [elem a] else elem a :: view v) ->
  part tix rules (NT L) u (NonTerminal v) ->
  exists us args, u = concat us /\ Forall2 (part tix rules X) us args /\ view v = map elem args.
Proof.
  intros N T E tix rules L X g0 g1 A view elem u v left Ho H0 H1 Hp.
  assert (F : forall us l, Forall2 (parts tix rules [X]) us l -> exists args, l = map (fun a => [a]) args /\ Forall2 (part tix rules X) us args).
  { induction 1 as [|u1 args us l H _ (as' & -> & IH)]; [exists []; auto|]. apply parts_one in H as (a & -> & H). exists (a :: as'). auto. }
  destruct left.
  - apply (proj1 (C98_left N T E tix rules L [] [X] g0 g1 u v Ho)) in Hp. destruct Hp as (u0 & u1 & args0 & v0 & l & -> & B & C & (us & -> & D) & G). inversion B; subst. destruct (F _ _ D) as (args & -> & D'). exists us, args. split; auto. split; auto.
    clear D D' us. revert v G. induction args as [|a args IH] using rev_ind; intros v G.
    + simpl in G. unfold from_left in G. simpl in G. injection G as <-. simpl. auto.
    + rewrite map_app in G. simpl in G. rewrite left_snoc in G. destruct (from_left g1 v0 (map (fun a => [a]) args)) as [v'| |]; try discriminate. simpl in G. rewrite map_app. simpl. rewrite <- (IH v' eq_refl). apply H1. auto.
  - apply (proj1 (C98_right N T E tix rules L [] [X] g0 g1 u v Ho)) in Hp. destruct Hp as (u0 & u1 & args0 & v0 & l & -> & B & C & (us & -> & D) & G). inversion B; subst. rewrite app_nil_r. destruct (F _ _ D) as (args & -> & D'). exists us, args. split; auto. split; auto.
    clear D D' us. revert v G. induction args as [|a args IH]; intros v G.
    + simpl in G. injection G as <-. simpl. auto.
    + simpl in G. destruct (from_right g1 v0 (map (fun a => [a]) args)) as [v'| |]; try discriminate. simpl in G. simpl. rewrite <- (IH v' eq_refl). apply H1. auto.
Qed.
Print Assumptions C98_vector.

(** ** These are the values that the reducers of the grammar get, in every run of every grammar *)
Lemma sub_app {A} (u u' : list A) : subsequence u u' -> forall v v', subsequence v v' -> subsequence (u ++ v) (u' ++ v').
Proof.
  induction 1 as [w|x u w H IH|x u w H IH]; intros v v' Hv; simpl; [|constructor; auto|constructor; auto]. induction w as [|x w IHw]; simpl; auto. apply sub_skip. auto.
Qed.
Lemma sub_refl {A} (w : list A) : subsequence w w.
Proof. induction w; constructor; auto. Qed.
Section Runs.
  Context {N T E : Type} (tix : T -> nat) (s : syntax N T E) (w : list T).
  Definition at_pos (l : list nat) : list T := flat_map (fun i => match nth_error w i with Some x => [x] | None => [] end) l.
  Lemma tree_parts : (forall X t, twf tix (gram s) w X t -> forall a, ev (gens s) w t = GOk a -> part tix (sx_rules s) X (at_pos (leaves t)) a) /\
    (forall l ts, twfs tix (gram s) w l ts -> forall args, gmap (ev (gens s) w) ts = GOk args -> parts tix (sx_rules s) l (at_pos (flat_map leaves ts)) args).
  Proof.
    apply twf_twfs_ind.
    - intros i x Hx a Ha. simpl in *. rewrite Hx in *. injection Ha as <-. simpl. constructor.
    - intros lo hi _ _ a Ha. simpl in *. injection Ha as <-. constructor.
    - intros k r ts Hr _ IH a He. destruct (rule_gen s _ _ Hr) as (c & Hk & <- & Hg). simpl in He.
      destruct (gmap _ ts) as [args| |] eqn:Eg; try discriminate. simpl in He. unfold call in He. rewrite Hg in He. destruct (cr_gen c args) as [v| |] eqn:Ec; try discriminate. simpl in He. injection He as <-.
      econstructor; eauto. eapply nth_error_In; eauto.
    - intros args He. simpl in *. injection He as <-. constructor.
    - intros Y l t ts _ IH1 _ IH2 args He. simpl in He. destruct (ev _ _ t) as [a| |] eqn:Ea; try discriminate. simpl in He. destruct (gmap _ ts) as [args'| |] eqn:Eg; try discriminate. simpl in He. injection He as <-.
      simpl. unfold at_pos. rewrite flat_map_app. constructor; auto.
  Qed.
  Lemma at_sorted l : StronglySorted Nat.lt l -> subsequence (at_pos l) w.
  Proof.
    assert (G : forall v l, StronglySorted Nat.lt l -> forall n, skipn n w = v -> Forall (fun i => n <= i) l -> subsequence (at_pos l) v).
    { induction v as [|x v IH]; intros l0 Hs n Hn Hf.
      - assert (at_pos l0 = []) as ->; [|constructor]. induction Hf as [|i l0 Hi _ IHl]; auto. simpl. inversion Hs; subst. rewrite IHl by auto. destruct (nth_error w i) eqn:Ei; auto. exfalso. assert (i < length w) by (apply nth_error_Some; congruence). pose proof (skipn_length n w) as L. rewrite Hn in L. simpl in L. lia.
      - assert (Hn' : skipn (S n) w = v) by (replace (S n) with (n + 1) by lia; rewrite <- skipn_sum, Hn; auto).
        assert (Hx : nth_error w n = Some x). { rewrite <- (Nat.add_0_r n), <- nth_skip, Hn. auto. }
        destruct l0 as [|i l0]; [constructor|]. inversion Hf as [|? ? F1 F2]; subst. inversion Hs as [|? ? S1 S2]; subst. destruct (Nat.eq_dec i n) as [->|Hne].
        + simpl. rewrite Hx. simpl. constructor. apply (IH l0 S1 (S n) eq_refl). eapply Forall_impl; [|exact S2]. intros j. unfold Nat.lt. lia.
        + apply sub_skip. apply (IH (i :: l0) Hs (S n) eq_refl). constructor; [lia|]. eapply Forall_impl; [|exact S2]. intros j. unfold Nat.lt. lia. }
    intros Hs. apply (G w l Hs 0); auto. apply Forall_forall. intros. lia.
  Qed.
  Lemma at_seq n : forall pos, pos + n <= length w -> at_pos (seq pos n) = firstn n (skipn pos w).
  Proof.
    induction n as [|n IH]; intros pos H; auto. simpl. rewrite IH by lia. destruct (nth_error w pos) as [x|] eqn:Ex; [|apply nth_error_None in Ex; lia]. rewrite (skipn_cons _ _ _ Ex). auto.
  Qed.
End Runs.

Theorem C98_arguments : forall N T E (nix : N -> nat) (tix : T -> nat) e (s : syntax N T E) P ws w fuel k args,
  api_syntax nix tix s -> makes e s P ws -> In (k, args) (parse_calls tix P fuel w) ->
  exists r u, nth_error (sx_rules s) k = Some r /\ parts tix (sx_rules s) (r_rhs (cr_rule r)) u args /\ subsequence u w /\
    (error_free s -> exists a b, w = a ++ u ++ b).
Proof.
  intros N T E nix tix e s P ws w fuel k args Ha Hmk. destruct (makes_made nix tix e s P ws Ha Hmk) as [ss Hm]. unfold parse_calls. pose proof (at_init tix s P ss w) as Hi. revert Hi. generalize (ps_init P w), (@nil sym), (@nil tree), 0. revert k args.
  induction fuel as [|fuel IH]; intros k args st g ts pos Hinv Hin; [destruct Hin|]. cbn [calls] in Hin.
  destruct (cases tix s P ws ss w Hm _ _ _ _ Hinv) as (d & Hd & Hc). destruct d as [[q|k'|]|]; cbn [step_case] in Hc.
  - destruct Hc as (Ec & _ & s' & Es & Hi). rewrite Ec, Es in Hin. simpl in Hin. eapply IH; eauto.
  - destruct Hd as (_ & _ & Hk & _).
    destruct Hc as [(r & _ & Ec & Es & _)|(r & dd & ts1 & ts2 & args' & gen & Hr & _ & _ & Ec & Ets & _ & Htw & Hga & Hg & Hc)]; [rewrite Ec, Es in Hin; destruct Hin|].
    rewrite Ec in Hin. apply in_app_or in Hin as [[Hin|[]]|Hin].
    + injection Hin as -> ->. pose proof (rule_old s ss _ _ Hk Hr) as Hr'. pose proof (twfs_old tix s P ws ss w Hm _ _ _ Hr' Htw) as Htw'. exists (mk_crule r gen), (at_pos w (flat_map leaves ts2)).
      split; [eapply nth_crule; eauto; eapply gens_old; eauto|]. split.
      * simpl. apply (proj2 (tree_parts tix s w) _ _ Htw'). rewrite <- Hga. symmetry. eapply gmap_made; eauto.
      * pose proof (inv_sorted _ _ _ _ _ _ _ _ _ _ Hinv) as Hs. rewrite Ets, flat_map_app in Hs. apply SSorted_app_inv in Hs as [_ Hs]. split; [apply at_sorted; auto|].
        intros Hef. destruct (inv_noerr _ _ _ _ _ _ _ _ _ _ Hinv) as [Hl _]; [apply errfree_noerr with (s := s); auto|]. rewrite Ets in Hl. rewrite flat_map_app in Hl. apply seq_cut in Hl as (_ & Hl & Hle).
        pose proof (inv_pos _ _ _ _ _ _ _ _ _ _ Hinv) as Hpos. pose proof (inv_input _ _ _ _ _ _ _ _ _ _ Hinv) as Hw. apply (f_equal (@length _)) in Hw. rewrite app_length in Hw.
        rewrite Hl, at_seq by (simpl; lia). set (a := length (flat_map leaves ts1)). simpl. exists (firstn a w), (skipn (pos - a) (skipn a w)). rewrite firstn_skipn, firstn_skipn. auto.
    + destruct (gen args') as [v|x|]; [destruct Hc as (s' & Es & Hi)|destruct Hc as [it Es]|rename Hc into Es]; rewrite Es in Hin; try destruct Hin. eapply IH; eauto.
  - destruct Hc as (Ec & _ & _ & t & v & _ & _ & Es). rewrite Ec, Es in Hin. destruct Hin.
  - destruct Hc as (Ec & [(it & Es & _)|(s' & Es & _ & g' & ts' & ts2 & lo & hi & pos' & _ & _ & _ & _ & _ & Hi)]); rewrite Ec, Es in Hin; simpl in Hin; [destruct Hin|]. eapply IH; eauto.
Qed.
Print Assumptions C98_arguments.
Theorem C98_result : forall N T E (nix : N -> nat) (tix : T -> nat) e (s : syntax N T E) P ws w v,
  api_syntax nix tix s -> makes e s P ws -> returns tix P w (ROk v) ->
  exists u, part tix (sx_rules s) (NT (sx_start s)) u (NonTerminal v) /\ subsequence u w /\ (error_free s -> u = w).
Proof.
  intros N T E nix tix e s P ws w v Ha Hmk Hr. destruct (makes_made nix tix e s P ws Ha Hmk) as [ss Hm]. apply returns_full in Hr as (fuel & it & Hf).
  destruct (parse_sound tix (gram s) (sx_start s) ss P w (md_fresh _ _ _ _ Hm) (md_eoi _ _ _ _ Hm) (md_can _ _ _ _ Hm) (md_len _ _ _ _ Hm) fuel) as [H|H]; [congruence|].
  rewrite Hf in H. destruct H as (t & H1 & H2 & H3 & _ & H4). apply (twf_aug tix _ _ _ w (md_fresh _ _ _ _ Hm)) in H1. rewrite (ev_made tix s P ws ss w Hm _ _ H1) in H2.
  exists (at_pos w (leaves t)). split; [apply (proj1 (tree_parts tix s w) _ _ H1 _ H2)|]. split; [apply at_sorted; auto|]. intros Hef. rewrite H4 by (apply errfree_noerr with (s := s); auto). rewrite at_seq by lia. apply firstn_all.
Qed.
Print Assumptions C98_result.

(** a reducer that gets a vector gets the elements in the order of the text *)
Lemma parts_nth {N T E} (tix : T -> nat) (rules : list (crule N T E)) l u args : parts tix rules l u args -> forall j X a, nth_error l j = Some X -> nth_error args j = Some a ->
  exists u1 u2 u3, u = u1 ++ u2 ++ u3 /\ part tix rules X u2 a.
Proof.
  induction 1 as [|X l u u' a args Hp Hps IH]; intros [|j] Y b HY Hb; simpl in *; try discriminate.
  - injection HY as <-. injection Hb as <-. exists [], u, u'. auto.
  - destruct (IH j Y b HY Hb) as (u1 & u2 & u3 & -> & H). exists (u ++ u1), u2, u3. rewrite <- app_assoc. auto.
Qed.
Lemma sub_mid {A} (u1 u2 u3 w : list A) : subsequence (u1 ++ u2 ++ u3) w -> subsequence u2 w.
Proof.
  assert (P1 : forall u v x : list A, subsequence (u ++ v) x -> subsequence v x).
  { induction u as [|a u IH]; intros v x H; auto. simpl in H. remember (a :: u ++ v) as y eqn:Ey. induction H as [x|b y x H _|b y x H IHs]; try discriminate; [injection Ey as -> ->; apply sub_skip; auto|apply sub_skip; auto]. }
  assert (P2 : forall u v x : list A, subsequence (u ++ v) x -> subsequence u x).
  { intros u v x H. remember (u ++ v) as y eqn:Ey. revert u Ey. induction H as [x|b y x H IHs|b y x H IHs]; intros u Ey; [destruct u; [constructor|discriminate]| |apply sub_skip; auto]. destruct u as [|c u]; [constructor|]. simpl in Ey. injection Ey as <- Ey. constructor. auto. }
  intros H. eapply P2, P1, H.
Qed.
Theorem C98_vector_argument : forall N T E (nix : N -> nat) (tix : T -> nat) e (s : syntax N T E) P ws w fuel k args r j L X g0 g1 (A : Type) (view : N -> list A) (elem : arg N T -> A) v (left : bool),
  api_syntax nix tix s -> makes e s P ws ->
  only_rules (sx_rules s) L (mk_crule (mk_rule L []) g0) (mk_crule (mk_rule L (if left then [NT L; X] else [X; NT L])) g1) ->
  (forall v, g0 [] = GOk v -> view v = []) ->
  (forall a v v', g1 (if left then [NonTerminal v; a] else [a; NonTerminal v]) = GOk v' -> view v' = if left then view v ++ [elem a] else elem a :: view v) ->
  In (k, args) (parse_calls tix P fuel w) -> nth_error (sx_rules s) k = Some r -> nth_error (r_rhs (cr_rule r)) j = Some (NT L) -> nth_error args j = Some (NonTerminal v) ->
  exists us elems, subsequence (concat us) w /\ Forall2 (part tix (sx_rules s) X) us elems /\ view v = map elem elems /\ (error_free s -> exists a b, w = a ++ concat us ++ b).
Proof.
  intros N T E nix tix e s P ws w fuel k args r j L X g0 g1 A view elem v left Ha Hmk Ho H0 H1 Hin Hr Hj Hv.
  destruct (C98_arguments _ _ _ nix tix e s P ws w fuel k args Ha Hmk Hin) as (r' & u & Hr' & Hp & Hs & Hc). assert (r' = r) by congruence. subst r'.
  destruct (parts_nth _ _ _ _ _ Hp _ _ _ Hj Hv) as (u1 & u2 & u3 & -> & Hq). destruct (C98_vector _ _ _ _ _ L X g0 g1 A view elem u2 v left Ho H0 H1 Hq) as (us & elems & -> & F & G).
  exists us, elems. split; [eapply sub_mid; eauto|]. split; auto. split; auto. intros Hef. destruct (Hc Hef) as (a & b & ->). exists (a ++ u1), (u3 ++ b). rewrite <- !app_assoc. auto.
Qed.
Print Assumptions C98_vector_argument.

(** ** Example: S ::= ( L ), L ::= (nothing) | L X and X ::= a | ( L ), with a 0, ( 1, ) 2; the value of an X is a list with one number, that of
    a bracket the sum of its elements *)
Definition lx := (nat * nat)%type.
Definition lx_nil : reducer (list nat) lx nat := fun args => match args with [] => GOk [] | _ => GPanic end.
Definition lx_push : reducer (list nat) lx nat := fun args => match args with [NonTerminal l; NonTerminal x] => GOk (l ++ x) | _ => GPanic end.
Definition lx_in : reducer (list nat) lx nat := fun args => match args with [Terminal _; NonTerminal l; Terminal _] => GOk l | _ => GPanic end.
Definition lx_sum : reducer (list nat) lx nat := fun args => match args with [Terminal _; NonTerminal l; Terminal _] => GOk [list_sum l] | _ => GPanic end.
Definition lx_atom : reducer (list nat) lx nat := fun args => match args with [Terminal x] => GOk [snd x] | _ => GPanic end.
Definition lx_syntax : syntax (list nat) lx nat := mk_syntax
  [rule_new_raw 0 [Terminal 1; NonTerminal 1; Terminal 2] lx_in; rule_new_raw 1 [] lx_nil; rule_new_raw 1 [NonTerminal 1; NonTerminal 2] lx_push;
   rule_new_raw 2 [Terminal 0] lx_atom; rule_new_raw 2 [Terminal 1; NonTerminal 1; Terminal 2] lx_sum] 0.
Definition lx_w : list lx := [(1, 0); (0, 5); (1, 0); (0, 1); (0, 2); (2, 0); (0, 7); (2, 0)].
Example C98_example : exists P, api_syntax (fun _ => 0) fst lx_syntax /\ makes env0 lx_syntax P [] /\ error_free lx_syntax /\ only_rules (sx_rules lx_syntax) 1 (mk_crule (mk_rule 1 []) lx_nil) (mk_crule (mk_rule 1 [NT 1; NT 2]) lx_push) /\ returns fst P lx_w (ROk [5; 3; 7]) /\ In (0, [Terminal (1, 0); NonTerminal [5; 3; 7]; Terminal (2, 0)]) (parse_calls fst P 100 lx_w) /\ repeated fst (sx_rules lx_syntax) [NT 2] (firstn 6 (skipn 1 lx_w)) [[NonTerminal [5]]; [NonTerminal [3]]; [NonTerminal [7]]] /\ from_left lx_push [] [[NonTerminal [5]]; [NonTerminal [3]]; [NonTerminal [7]]] = GOk [5; 3; 7].
Proof.
  eexists. split; [raw_rules|]. split; [mk1|]. split; [intros r Hr; simpl in Hr; repeat destruct Hr as [<-|Hr]; try destruct Hr; simpl; intuition discriminate|]. split.
  { split; [simpl; auto|]. split; [simpl; auto|]. intros r Hr Hl. simpl in Hr. repeat destruct Hr as [<-|Hr]; try destruct Hr; simpl in Hl; try discriminate; auto. }
  split; [exists 100; vm_compute; reflexivity|]. split; [vm_compute; intuition|]. split; [|reflexivity].
  assert (A : forall n, part fst (sx_rules lx_syntax) (NT 2) [(0, n)] (NonTerminal [n])).
  { intros n. apply (part_rule fst (sx_rules lx_syntax) (mk_crule (mk_rule 2 [TM (TSym 0)]) lx_atom) [(0, n)] [Terminal (0, n)] [n]); [simpl; auto 10| |reflexivity]. apply parts_one. eexists. split; [reflexivity|]. apply (part_token fst (sx_rules lx_syntax) (0, n)). }
  assert (O : only_rules (sx_rules lx_syntax) 1 (mk_crule (mk_rule 1 []) lx_nil) (mk_crule (mk_rule 1 [NT 1; NT 2]) lx_push)).
  { split; [simpl; auto|]. split; [simpl; auto|]. intros r Hr Hl. simpl in Hr. repeat destruct Hr as [<-|Hr]; try destruct Hr; simpl in Hl; try discriminate; auto. }
  assert (B : part fst (sx_rules lx_syntax) (NT 2) [(1, 0); (0, 1); (0, 2); (2, 0)] (NonTerminal [3])).
  { apply (part_rule fst (sx_rules lx_syntax) (mk_crule (mk_rule 2 [TM (TSym 1); NT 1; TM (TSym 2)]) lx_sum) ([(1, 0)] ++ [(0, 1); (0, 2)] ++ [(2, 0)]) [Terminal (1, 0); NonTerminal [1; 2]; Terminal (2, 0)] [3]); [simpl; auto 10| |reflexivity].
    constructor; [apply (part_token fst (sx_rules lx_syntax) (1, 0))|]. constructor; [|apply parts_one; eexists; split; [reflexivity|apply (part_token fst (sx_rules lx_syntax) (2, 0))]].
    apply (C98_left _ _ _ fst (sx_rules lx_syntax) 1 [] [NT 2] lx_nil lx_push _ _ O). exists [], [(0, 1); (0, 2)], [], [], [[NonTerminal [1]]; [NonTerminal [2]]]. split; auto. split; [constructor|]. split; auto. split; [|reflexivity].
    exists [[(0, 1)]; [(0, 2)]]. split; auto. repeat constructor; apply parts_one; eexists; (split; [reflexivity|apply A]). }
  exists [[(0, 5)]; [(1, 0); (0, 1); (0, 2); (2, 0)]; [(0, 7)]]. split; auto. repeat constructor; apply parts_one; eexists; (split; [reflexivity|auto]).
Qed.
