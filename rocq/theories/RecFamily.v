(** * A family of inputs on which recovery from errors takes exponentially many turns; used for C71 *)
From Coq Require Import List Arith Lia Bool Permutation.
From Verif Require Import Lib Grammar LrModel LrSpec LrSets LrStates LrNew LrTop ParseModel Trees ParseSpec ParseInv ParseComplete GramFacts ParseTerm ParseTop ParseMore ParseExamples PropParse.
Import ListNotations.

(** ** The textbook rule for an unclosed bracket, E ::= ( error ), and a family of short inputs *)
(** E ::= a | ( L ) | ( error );  L ::= E | L , E.  Terminals: 0 is (, 1 is ), 2 is the comma, 3 is a. *)
Definition r_zero : reducer nat tk nat := fun _ => GOk 0.
Definition lists : stx := mk_syntax
  [ rule_new_raw 0 [TM' 3] r_zero;
    rule_new_raw 0 [TM' 0; NT' 1; TM' 1] r_zero;
    rule_new_raw 0 [TM' 0; ER'; TM' 1] r_zero;
    rule_new_raw 1 [NT' 0] r_zero;
    rule_new_raw 1 [NT' 1; TM' 2; NT' 0] r_zero ] 0.
Definition P_lists : prs := Eval vm_compute in fst (build env0 lists).
(** [( ( a ) , ( ( a ) , ... ( ( a ) , )]: lists that are opened and not closed *)
Definition unclosed : list tk := [(0, 0); (0, 0); (3, 0); (1, 0); (2, 0)].
Fixpoint deep (n : nat) : list tk := match n with 0 => [(1, 0)] | S n => unclosed ++ deep n end.

Section Run.
  Variable w : list tk.
  Definition tok (i : nat) : term * nat := (TSym (tkix (nth i w (0, 0))), i).
  (** the parser has read [r] tokens; the next one is at [pos] *)
  Definition cfg (r pos q : nat) (st : list (nat * entry nat)) (rc : list nat) : pstate nat tk :=
    mk_ps (skipn r w) q (firstn r w) (map tok (seq pos (r - pos))) st rc.

  Lemma read_cfg r pos q st rc x : nth_error w pos = Some x -> pos <= r <= length w ->
    ps_read tkix (cfg r pos q st rc) = cfg (max r (S pos)) pos q st rc /\ S pos <= max r (S pos) <= length w /\ tok pos = (TSym (tkix x), pos).
  Proof.
    intros Hx Hr. assert (Hlt : pos < length w) by (apply nth_error_Some; congruence).
    assert (Ht : tok pos = (TSym (tkix x), pos)) by (unfold tok; rewrite (nth_error_nth _ _ _ Hx); reflexivity).
    split; [|split; [lia|exact Ht]]. destruct (Nat.eq_dec pos r) as [<-|Hne].
    - unfold cfg, ps_read. rewrite Nat.sub_diag. cbn [seq map ps_buf ps_iter ps_state ps_syms ps_stack ps_rec]. rewrite (skipn_nth_cons _ _ _ Hx).
      replace (max pos (S pos)) with (S pos) by lia. replace (S pos - pos) with 1 by lia. cbn [seq map]. rewrite Ht, firstn_length, Nat.min_l by lia.
      f_equal. rewrite <- (firstn_skipn pos w) at 2. rewrite firstn_app, firstn_firstn, firstn_length. replace (min (S pos) pos) with pos by lia.
      replace (S pos - min pos (length w)) with 1 by lia. rewrite (skipn_nth_cons _ _ _ Hx). reflexivity.
    - replace (max r (S pos)) with r by lia. unfold cfg, ps_read. cbn [ps_buf]. replace (r - pos) with (S (r - S pos)) by lia. reflexivity.
  Qed.
  Lemma buf_cfg r pos q st rc : S pos <= r -> ps_buf (cfg r pos q st rc) = tok pos :: map tok (seq (S pos) (r - S pos)).
  Proof. intros H. unfold cfg. cbn [ps_buf]. replace (r - pos) with (S (r - S pos)) by lia. reflexivity. Qed.

  (** a run that makes [c] reducer calls *)
  Inductive go : pstate nat tk -> nat -> nat -> pstate nat tk -> Prop :=
  | go_nil s : go s 0 0 s
  | go_cons s s' k c s'' : parse_step tkix P_lists s = inl s' -> go s' k c s'' ->
      go s (S k) ((match step_call tkix P_lists s with Some _ => 1 | None => 0 end) + c) s''.
  Lemma go_one s s' c : parse_step tkix P_lists s = inl s' -> match step_call tkix P_lists s with Some _ => 1 | None => 0 end = c -> go s 1 c s'.
  Proof. intros H <-. rewrite <- (Nat.add_0_r (match step_call _ _ _ with Some _ => 1 | None => 0 end)). econstructor; [exact H|constructor]. Qed.
  Lemma go_app s k c s' k' c' s'' : go s k c s' -> go s' k' c' s'' -> go s (k + k') (c + c') s''.
  Proof. induction 1; simpl; auto. intros H1. rewrite <- Nat.add_assoc. econstructor; eauto. Qed.
  Lemma go_calls s k c s' : go s k c s' -> forall fuel, loop (parse_step tkix P_lists) (k + fuel) s = loop (parse_step tkix P_lists) fuel s' /\
    length (calls tkix P_lists (k + fuel) s) = c + length (calls tkix P_lists fuel s').
  Proof.
    induction 1 as [s|s s' k c s'' Hs Hg IH]; intros fuel; [auto|]. destruct (IH fuel) as [I1 I2]. cbn [Nat.add loop calls]. rewrite Hs, I1. split; auto.
    rewrite app_length, I2, <- Nat.add_assoc. f_equal. destruct (step_call tkix P_lists s); reflexivity.
  Qed.

  Record conf := mk_conf { c_pos : nat; c_state : nat; c_stack : list (nat * entry nat); c_rec : list nat }.
  Definition at_conf (r : nat) (x : conf) : pstate nat tk := cfg r (c_pos x) (c_state x) (c_stack x) (c_rec x).
  Definition leads (x : conf) (c : nat) (y : conf) : Prop := forall r, c_pos x <= r <= length w ->
    exists r' k, c_pos y <= r' <= length w /\ go (at_conf r x) k c (at_conf r' y).
  Lemma leads_nil x : leads x 0 x.
  Proof. intros r Hr. exists r, 0. split; auto. constructor. Qed.
  Lemma leads_app x c y c' z : leads x c y -> leads y c' z -> leads x (c + c') z.
  Proof. intros H1 H2 r Hr. destruct (H1 r Hr) as (r1 & k1 & Hr1 & G1). destruct (H2 r1 Hr1) as (r2 & k2 & Hr2 & G2). exists r2, (k1 + k2). split; auto. eapply go_app; eauto. Qed.

  Lemma leads_shift pos q st rc x q' : nth_error w pos = Some x -> act (pr_tab P_lists) q (TSym (tkix x)) = Ok (Some (Shift q')) ->
    leads (mk_conf pos q st rc) 0 (mk_conf (S pos) q' ((q, ETok (tkix x) pos) :: st) rc).
  Proof.
    intros Hx Ha r Hr. cbn [c_pos] in *. destruct (read_cfg r pos q st rc x Hx Hr) as (R1 & R2 & R3). exists (max r (S pos)), 1. split; auto.
    unfold at_conf. cbn [c_pos c_state c_stack c_rec].
    assert (Hs : parse_step tkix P_lists (cfg r pos q st rc) = inl (cfg (max r (S pos)) (S pos) q' ((q, ETok (tkix x) pos) :: st) rc)).
    { unfold parse_step. cbv zeta. rewrite R1, buf_cfg, R3 by lia. cbn [ps_state cfg]. rewrite Ha. reflexivity. }
    assert (Hc : step_call tkix P_lists (cfg r pos q st rc) = None).
    { unfold step_call. cbv zeta. rewrite R1, buf_cfg, R3 by lia. cbn [ps_state cfg]. rewrite Ha. reflexivity. }
    apply go_one; [exact Hs|rewrite Hc; reflexivity].
  Qed.

  (** the positions of popped symbols *)
  Fixpoint placed (len base : nat) (l : list (entry nat)) : Prop :=
    match l with
    | [] => True
    | ENon _ _ :: l => placed len base l
    | ETok _ i :: l => base <= i < len /\ placed len (S i) l
    | EErr lo hi :: l => lo <= S hi /\ hi < len /\ placed len base l
    | EEoi :: _ => False
    end.
  Lemma args_ok all l : forall base, placed (length all) base l -> exists args, reduce_args all base l = Ok (args : list (arg nat tk)).
  Proof.
    induction l as [|[v i|t i|lo hi|] l IH]; intros base H; simpl in *; try contradiction; eauto.
    - destruct (IH _ H) as [a ->]. simpl. eauto.
    - destruct H as [H1 H2]. destruct (IH _ H2) as [a ->]. replace (i <? base) with false by (symmetry; apply Nat.ltb_ge; lia).
      destruct (nth_error all i) as [x|] eqn:Ex; [|apply nth_error_None in Ex; lia]. simpl. eauto.
    - destruct H as (H1 & H2 & H3). destruct (IH _ H3) as [a ->]. unfold slice.
      replace (lo <=? S hi) with true by (symmetry; apply Nat.leb_le; lia). replace (hi <? length all) with true by (symmetry; apply Nat.ltb_lt; lia). simpl. eauto.
  Qed.
  Lemma leads_reduce pos q st b e0 l rest rc x k r row q' i : nth_error w pos = Some x -> act (pr_tab P_lists) q (TSym (tkix x)) = Ok (Some (Reduce k)) ->
    st = rev ((b, e0) :: l) ++ rest -> nth_error (p_rules (pr_tab P_lists)) k = Some r -> k < 5 -> S (length l) = length (r_rhs r) ->
    placed (S pos) 0 (e0 :: map snd l) -> (forall d, first_index (e0 :: map snd l) d = i) ->
    aget eqb b (p_goto (pr_tab P_lists)) = Some row -> aget eqb (r_lhs r) row = Some q' ->
    leads (mk_conf pos q st rc) 1 (mk_conf pos q' ((b, ENon 0 i) :: rest) (if existsb (Nat.eqb k) rc then [] else rc)).
  Proof.
    intros Hx Ha -> Hr Hk Hl Hp Hi Hrow Hq r0 Hr0. cbn [c_pos] in *. destruct (read_cfg r0 pos q (rev ((b, e0) :: l) ++ rest) rc x Hx Hr0) as (R1 & R2 & R3).
    exists (max r0 (S pos)), 1. split; [lia|]. unfold at_conf. cbn [c_pos c_state c_stack c_rec].
    set (st := rev ((b, e0) :: l) ++ rest) in *. set (rr := max r0 (S pos)) in *.
    assert (Ln : length (rev ((b, e0) :: l)) = length (r_rhs r)) by (rewrite rev_length; exact Hl).
    assert (Hf : firstn (length (r_rhs r)) st = rev ((b, e0) :: l)).
    { unfold st. rewrite <- Ln, firstn_app, Nat.sub_diag, firstn_all, firstn_O, app_nil_r. reflexivity. }
    assert (Hsk : skipn (length (r_rhs r)) st = rest).
    { unfold st. rewrite <- Ln, skipn_app, Nat.sub_diag, skipn_all. reflexivity. }
    assert (Hln : length st <? length (r_rhs r) = false) by (apply Nat.ltb_ge; unfold st; rewrite app_length, Ln; lia).
    destruct (args_ok (firstn rr w) (e0 :: map snd l) 0) as [args Hargs].
    { rewrite firstn_length, Nat.min_l by lia. revert Hp. assert (Hle : S pos <= rr) by lia. revert Hle. generalize (S pos) rr (e0 :: map snd l). clear.
      intros m m' l Hle. generalize 0. induction l as [|[v i|t i|lo hi|] l IH]; intros base; simpl; auto; intros; intuition (try lia; auto). }
    assert (Hg : exists g, nth_error (pr_gens P_lists) k = Some g /\ g args = GOk 0).
    { do 5 (destruct k as [|k]; [eexists; split; reflexivity|]). lia. }
    destruct Hg as (g & Hg1 & Hg2).
    assert (Hbuf : map tok (seq pos (rr - pos)) = (TSym (tkix x), pos) :: map tok (seq (S pos) (rr - S pos))) by (rewrite <- R3; replace (rr - pos) with (S (rr - S pos)) by lia; reflexivity).
    assert (Hs : parse_step tkix P_lists (cfg r0 pos q st rc) = inl (cfg rr pos q' ((b, ENon 0 i) :: rest) (if existsb (Nat.eqb k) rc then [] else rc))).
    { unfold parse_step. cbv zeta. rewrite R1, buf_cfg, R3 by lia. unfold cfg at 1. cbn [ps_state]. rewrite Ha, Hr. unfold cfg. cbn [ps_state ps_syms ps_stack ps_buf ps_iter ps_rec].
      rewrite Hln, Hf, Hsk, rev_involutive. cbn [map snd]. rewrite Hargs, Hg1, Hg2, Hrow, Hq, Hi, Hbuf. reflexivity. }
    assert (Hc : step_call tkix P_lists (cfg r0 pos q st rc) = Some (k, args)).
    { unfold step_call. cbv zeta. rewrite R1, buf_cfg, R3 by lia. unfold cfg at 1. cbn [ps_state]. rewrite Ha, Hr. unfold cfg. cbn [ps_syms ps_stack].
      rewrite Hln, Hf, rev_involutive. cbn [map snd]. rewrite Hargs. reflexivity. }
    apply go_one; [exact Hs|rewrite Hc; reflexivity].
  Qed.

  Lemma leads_error pos q st rc x cur st' rc' back head ehead q' : nth_error w pos = Some x -> act (pr_tab P_lists) q (TSym (tkix x)) = Ok None ->
    recover (pr_tab P_lists) false rc false q pos pos st = Some (cur, st', rc', back, head, ehead) -> head <= pos ->
    act (pr_tab P_lists) cur TErr = Ok (Some (Shift q')) ->
    leads (mk_conf pos q st rc) 0 (mk_conf (if back then S head else head) q' ((cur, EErr (Nat.min head ehead) pos) :: st') rc').
  Proof.
    intros Hx Ha Hrec Hh He r0 Hr0. cbn [c_pos] in *. destruct (read_cfg r0 pos q st rc x Hx Hr0) as (R1 & R2 & R3).
    exists (max r0 (S pos)), 1. split; [destruct back; lia|]. unfold at_conf. cbn [c_pos c_state c_stack c_rec]. set (rr := max r0 (S pos)) in *.
    assert (Hpb : put_back tkix (firstn rr w) head pos = Ok (map tok (seq head (pos - head)))).
    { unfold put_back. assert (Hle : forall i, In i (seq head (pos - head)) -> i < rr) by (intros i Hi; apply in_seq in Hi; lia).
      revert Hle. generalize (seq head (pos - head)). induction l as [|i l IH]; intros Hle; [reflexivity|]. cbn [mapM map].
      assert (Hi : nth_error (firstn rr w) i = Some (nth i w (0, 0))).
      { rewrite <- (firstn_skipn rr w) at 2. assert (Hil : i < length (firstn rr w)) by (rewrite firstn_length; specialize (Hle i (or_introl eq_refl)); lia).
        rewrite app_nth1 by exact Hil. apply nth_error_nth'. exact Hil. }
      rewrite Hi. simpl of_opt. cbn [bind]. rewrite IH; [reflexivity|]. intros j Hj. apply Hle. right. exact Hj. }
    assert (Hbuf : map tok (seq pos (rr - pos)) = (TSym (tkix x), pos) :: map tok (seq (S pos) (rr - S pos))) by (rewrite <- R3; replace (rr - pos) with (S (rr - S pos)) by lia; reflexivity).
    assert (Hs : parse_step tkix P_lists (cfg r0 pos q st rc) = inl (cfg rr (if back then S head else head) q' ((cur, EErr (Nat.min head ehead) pos) :: st') rc')).
    { unfold parse_step. cbv zeta. rewrite R1, buf_cfg, R3 by lia. unfold cfg at 1. cbn [ps_state]. rewrite Ha. unfold cfg at 1 2 3. cbn [ps_state ps_syms ps_stack ps_rec]. rewrite Hrec.
      unfold cfg at 1. cbn [ps_syms]. rewrite Hpb, He. unfold cfg. cbn [ps_iter ps_syms ps_buf]. rewrite <- Hbuf.
      assert (Eb : map tok (seq head (pos - head)) ++ map tok (seq pos (rr - pos)) = map tok (seq head (rr - head))).
      { rewrite <- map_app. f_equal. replace (rr - head) with ((pos - head) + (rr - pos)) by lia. rewrite seq_app. f_equal. f_equal. lia. }
      rewrite Eb. f_equal. f_equal. destruct back; [|reflexivity]. replace (rr - head) with (S (rr - S head)) by lia. reflexivity. }
    assert (Hc : step_call tkix P_lists (cfg r0 pos q st rc) = None).
    { unfold step_call. cbv zeta. rewrite R1, buf_cfg, R3 by lia. unfold cfg at 1. cbn [ps_state]. rewrite Ha. reflexivity. }
    apply go_one; [exact Hs|rewrite Hc; reflexivity].
  Qed.
End Run.

Lemma nth_skip {A} (l : list A) p i : nth_error l (p + i) = nth_error (skipn p l) i.
Proof. revert l. induction p as [|p IH]; intros [|x l]; simpl; auto. destruct i; reflexivity. Qed.
Lemma skip_skip {A} (l : list A) p i : skipn (p + i) l = skipn i (skipn p l).
Proof. revert l. induction p as [|p IH]; intros [|x l]; simpl; auto. destruct i; reflexivity. Qed.
Lemma deep_len n : length (deep n) = 5 * n + 1.
Proof. induction n as [|n IH]; simpl; [reflexivity|]. rewrite IH. lia. Qed.

Section Family.
  Variable w : list tk.
  Notation leads := (leads w).
  (** the list that is open: its bracket is at the bottom or not, which the states tell apart *)
  Definition open_at (b gl : nat) : Prop := b = 2 /\ gl = 6 \/ b = 5 /\ gl = 9.
  Ltac shift H := eapply leads_app; [eapply leads_shift; [exact H|reflexivity]|].
  Ltac reduce H ll := eapply leads_app; [eapply leads_reduce with (l := ll); [exact H|reflexivity|reflexivity|reflexivity|lia|reflexivity|cbn [placed map snd]; repeat split; lia|intros; cbn [map snd first_index]; reflexivity|reflexivity|reflexivity]|]; cbn [existsb Nat.eqb orb].

  Lemma one_open p q st : forall (Hq : q = 2 \/ q = 5) (Hw : exists z, skipn p w = (0, 0) :: (3, 0) :: (1, 0) :: (2, 0) :: z),
    leads (mk_conf p q st []) 4 (mk_conf (4 + p) 12 ((if q =? 2 then 6 else 9, ETok 2 (3 + p)) :: (q, ENon 0 p) :: st) []).
  Proof.
    intros Hq [z Hw].
    assert (E0 : nth_error w p = Some (0, 0)) by (rewrite <- (Nat.add_0_r p), nth_skip, Hw; reflexivity).
    assert (E1 : nth_error w (S p) = Some (3, 0)) by (replace (S p) with (p + 1) by lia; rewrite nth_skip, Hw; reflexivity).
    assert (E2 : nth_error w (S (S p)) = Some (1, 0)) by (replace (S (S p)) with (p + 2) by lia; rewrite nth_skip, Hw; reflexivity).
    assert (E3 : nth_error w (S (S (S p))) = Some (2, 0)) by (replace (S (S (S p))) with (p + 3) by lia; rewrite nth_skip, Hw; reflexivity).
    assert (G : exists c, c = 4 /\ leads (mk_conf p q st []) c (mk_conf (4 + p) 12 ((if q =? 2 then 6 else 9, ETok 2 (3 + p)) :: (q, ENon 0 p) :: st) []));
      [|destruct G as (c & -> & G); exact G].
    destruct Hq as [-> | ->]; (refine (ex_intro _ _ (conj _ _)); cycle 1;
    [shift E0; shift E1; reduce E2 (@nil (nat * entry nat)); reduce E2 (@nil (nat * entry nat)); shift E2;
     reduce E3 [(5, ENon 0 (S p)); (9, ETok 1 (S (S p)))]; reduce E3 (@nil (nat * entry nat)); shift E3; apply leads_nil|reflexivity]).
  Qed.

  (** [k] lists that are not closed, inside one: the calls double with each *)
  Lemma doubling k : forall p b gl i1 i2 st, open_at b gl -> skipn p w = deep k -> i2 < p ->
    exists i2', i2' < 5 * k + p /\
    leads (mk_conf p 12 ((gl, ETok 2 i2) :: (b, ENon 0 i1) :: st) []) (6 * (2 ^ k - 1)) (mk_conf (5 * k + p) 12 ((gl, ETok 2 i2') :: (b, ENon 0 i1) :: st) []).
  Proof.
    induction k as [|k IH]; intros p b gl i1 i2 st Hb Hw Hi.
    { exists i2. split; [lia|]. apply leads_nil. }
    cbn [deep unclosed app] in Hw.
    assert (E0 : nth_error w p = Some (0, 0)) by (rewrite <- (Nat.add_0_r p), nth_skip, Hw; reflexivity).
    assert (E2 : nth_error w (2 + p) = Some (3, 0)) by (replace (2 + p) with (p + 2) by lia; rewrite nth_skip, Hw; reflexivity).
    assert (E3 : nth_error w (3 + p) = Some (1, 0)) by (replace (3 + p) with (p + 3) by lia; rewrite nth_skip, Hw; reflexivity).
    assert (E4 : nth_error w (4 + p) = Some (2, 0)) by (replace (4 + p) with (p + 4) by lia; rewrite nth_skip, Hw; reflexivity).
    assert (E5 : skipn (5 + p) w = deep k) by (replace (5 + p) with (p + 5) by lia; rewrite skip_skip, Hw; reflexivity).
    assert (E6 : nth_error w (5 * k + (5 + p)) = Some (1, 0)).
    { replace (5 * k + (5 + p)) with ((5 + p) + 5 * k) by lia. rewrite nth_skip, E5. clear. induction k as [|k IH]; [reflexivity|]. replace (5 * S k) with (5 + 5 * k) by lia. exact IH. }
    set (st0 := (gl, ETok 2 i2) :: (b, ENon 0 i1) :: st) in *.
    destruct (IH (5 + p) 5 9 (S p) (4 + p) ((12, ETok 0 p) :: st0) (or_intror (conj eq_refl eq_refl)) E5) as (i2' & Hi2 & L1); [lia|].
    destruct (IH (5 + p) b gl i1 (4 + p) st Hb E5) as (i3 & Hi3 & L2); [lia|].
    exists i3. split; [lia|]. replace (5 * S k + p) with (5 * k + (5 + p)) by lia.
    match goal with |- leads ?x ?t ?y => assert (G : exists c, c = t /\ leads x c y); [|destruct G as (c & -> & G); exact G] end.
    refine (ex_intro _ _ (conj _ _)); cycle 1.
    - shift E0. eapply leads_app; [apply (one_open (S p) 5); [auto|]|].
      { replace (S p) with (p + 1) by lia. rewrite skip_skip, Hw. eexists. reflexivity. }
      eapply leads_app; [exact L1|].
      (* the bracket does not match: everything since the opening one is given up *)
      eapply leads_app; [eapply leads_error; [exact E6|reflexivity|reflexivity|lia|reflexivity]|]. cbn [Nat.min].
      eapply leads_app; [eapply leads_error; [exact E2|reflexivity|reflexivity|lia|reflexivity]|].
      shift E3.
      match goal with |- leads (mk_conf _ _ (?x1 :: ?x2 :: _) _) _ _ => reduce E4 [x2; x1] end.
      assert (Hgl : act (pr_tab P_lists) gl (TSym 2) = Ok (Some (Shift 12)) /\ exists row, aget eqb b (p_goto (pr_tab P_lists)) = Some row /\ aget eqb 1 row = Some gl).
      { destruct Hb as [[-> ->]|[-> ->]]; split; try reflexivity; eexists; split; reflexivity. }
      destruct Hgl as (Hgl1 & row & Hgl2 & Hgl3).
      eapply leads_app; [eapply leads_reduce with (b := b) (e0 := ENon 0 i1) (l := [(gl, ETok 2 i2); (12, ENon 0 p)]);
        [exact E4|reflexivity|reflexivity|reflexivity|lia|reflexivity|cbn [placed map snd]; repeat split; lia|intros; cbn [map snd first_index]; reflexivity|exact Hgl2|exact Hgl3]|]. cbn [existsb].
      eapply leads_app; [eapply leads_shift; [exact E4|exact Hgl1]|]. exact L2.
    - pose proof (Nat.pow_nonzero 2 k). replace (2 ^ S k) with (2 ^ k + 2 ^ k) by (simpl; lia). lia.
  Qed.

  Lemma leads_then x y c z : leads x 0 y -> leads y c z -> leads x c z.
  Proof. intros H1 H2. exact (leads_app _ _ _ _ _ _ H1 H2). Qed.
  (** everything up to the last bracket is skipped *)
  Lemma skip_all m : forall p lo hi, p + S m = length w -> nth_error w (p + m) = Some (1, 0) -> hi < length w -> lo <= S hi ->
    exists lo' hi', hi' < length w /\ lo' <= S hi' /\
      leads (mk_conf p 7 [(2, EErr lo hi); (0, ETok 0 0)] [2]) 0 (mk_conf (length w) 13 [(7, ETok 1 (p + m)); (2, EErr lo' hi'); (0, ETok 0 0)] [2]).
  Proof.
    induction m as [|m IH]; intros p lo hi Hp Hl H1 H2.
    { rewrite Nat.add_0_r in *. exists lo, hi. split; [lia|]. split; auto. replace (length w) with (S p) by lia.
      eapply leads_then; [eapply leads_shift; [exact Hl|reflexivity]|]. apply leads_nil. }
    assert (Hx : exists x, nth_error w p = Some x) by (destruct (nth_error w p) as [x|] eqn:E; eauto; apply nth_error_None in E; lia). destruct Hx as [x Hx].
    assert (Hy : exists y, nth_error w (S p) = Some y) by (destruct (nth_error w (S p)) as [y|] eqn:E; eauto; apply nth_error_None in E; lia). destruct Hy as [y Hy].
    replace (p + S m) with (S p + m) in * by lia.
    destruct (Nat.eq_dec (tkix x) 1) as [E|E].
    - destruct (IH (S p) (Nat.min p lo) (S p)) as (lo' & hi' & A1 & A2 & A3); auto; try lia. exists lo', hi'. split; auto. split; auto.
      eapply leads_then; [eapply leads_shift; [exact Hx|rewrite E; reflexivity]|].
      eapply leads_then; [eapply leads_error; [exact Hy|reflexivity|reflexivity|lia|reflexivity]|]. exact A3.
    - destruct (IH (S p) (Nat.min p lo) p) as (lo' & hi' & A1 & A2 & A3); auto; try lia. exists lo', hi'. split; auto. split; auto.
      eapply leads_then; [eapply leads_error; [exact Hx| |reflexivity|lia|reflexivity]|exact A3].
      change (Ok (if eqb (TSym (tkix x)) (TSym 1) then Some (Shift 13) else None) = Ok (@None (action nat))). destruct (eqb (TSym (tkix x)) (TSym 1)) eqn:Eq; [apply eqb_eq in Eq; injection Eq as Eq; contradiction|reflexivity].
  Qed.
End Family.

(** all of it *)
Lemma deep_parse n : exists fuel, parse_full tkix P_lists fuel (deep (S n)) = Ok (ROk 0, []) /\ length (parse_calls tkix P_lists fuel (deep (S n))) = 3 * 2 ^ S n - 1.
Proof.
  set (w := deep (S n)). assert (Hlen : length w = 5 * n + 6) by (unfold w; rewrite deep_len; lia).
  assert (E5 : skipn 5 w = deep n) by reflexivity.
  assert (El : nth_error w (5 * n + 5) = Some (1, 0)).
  { replace (5 * n + 5) with (5 + 5 * n) by lia. rewrite nth_skip, E5. clear. induction n as [|n IH]; [reflexivity|]. replace (5 * S n) with (5 + 5 * n) by lia. exact IH. }
  destruct (doubling w n 5 2 6 1 4 [(0, ETok 0 0)] (or_introl (conj eq_refl eq_refl)) E5) as (i2 & Hi2 & L2); [lia|].
  assert (He : exists lo hi, hi < length w /\ lo <= S hi /\
    leads w (mk_conf (5 * n + 5) 12 [(6, ETok 2 i2); (2, ENon 0 1); (0, ETok 0 0)] []) 0 (mk_conf 2 7 [(2, EErr lo hi); (0, ETok 0 0)] [2])).
  { do 2 eexists. split; [|split]; cycle 2.
    - eapply leads_then; [eapply leads_error; [exact El|reflexivity|reflexivity|lia|reflexivity]|]. apply leads_nil.
    - lia.
    - lia. }
  destruct He as (lo0 & hi0 & B3 & B4 & L4).
  destruct (skip_all w (5 * n + 3) 2 lo0 hi0) as (lo & hi & B1 & B2 & L3); [lia| |lia|lia|].
  { replace (2 + (5 * n + 3)) with (5 * n + 5) by lia. exact El. }
  assert (L : leads w (mk_conf 0 0 [] []) (3 * 2 ^ S n - 2) (mk_conf (length w) 13 [(7, ETok 1 (2 + (5 * n + 3))); (2, EErr lo hi); (0, ETok 0 0)] [2])).
  { replace (3 * 2 ^ S n - 2) with (4 + (6 * (2 ^ n - 1) + 0)).
    2:{ pose proof (Nat.pow_nonzero 2 n). replace (2 ^ S n) with (2 ^ n + 2 ^ n) by (simpl; lia). lia. }
    eapply leads_then; [eapply leads_shift; reflexivity|]. eapply leads_app; [apply (one_open w 1 2); [auto|eexists; reflexivity]|].
    eapply leads_app; [exact L2|]. eapply leads_then; [exact L4|]. exact L3. }
  destruct (L 0) as (r & k & Hr & G); [simpl; lia|]. cbn [c_pos] in Hr. assert (r = length w) by lia. subst r. clear Hr.
  assert (Hf : loop (parse_step tkix P_lists) 2 (at_conf w (length w) (mk_conf (length w) 13 [(7, ETok 1 (2 + (5 * n + 3))); (2, EErr lo hi); (0, ETok 0 0)] [2])) = Ok (ROk 0, []) /\
    length (calls tkix P_lists 2 (at_conf w (length w) (mk_conf (length w) 13 [(7, ETok 1 (2 + (5 * n + 3))); (2, EErr lo hi); (0, ETok 0 0)] [2]))) = 1).
  { unfold at_conf. cbn [c_pos c_state c_stack c_rec]. unfold cfg. rewrite skipn_all, firstn_all, Nat.sub_diag. cbn [seq map].
    assert (Hi : 0 < 2 + (5 * n + 3) < length w) by lia. clearbody w. clear - Hi B1 B2. revert Hi. generalize (2 + (5 * n + 3)). intros i Hi.
    destruct (args_ok w [ETok 0 0; EErr lo hi; ETok 1 i] 0) as [args Ha]; [cbn [placed]; repeat split; lia|].
    cbn [loop calls].
    assert (Hs : parse_step tkix P_lists (mk_ps [] 13 w [] [(7, ETok 1 i); (2, EErr lo hi); (0, ETok 0 0)] [2]) = inl (mk_ps [] 3 w [(TEoi, 0)] [(0, ENon 0 0)] [])).
    { cbn -[reduce_args]. rewrite Ha. reflexivity. }
    assert (Hc : step_call tkix P_lists (mk_ps [] 13 w [] [(7, ETok 1 i); (2, EErr lo hi); (0, ETok 0 0)] [2]) = Some (2, args)).
    { cbn -[reduce_args]. rewrite Ha. reflexivity. }
    rewrite Hs, Hc. split; reflexivity. }
  destruct (go_calls _ _ _ _ G 2) as [G1 G2]. exists (k + 2).
  change (ps_init P_lists w) with (mk_ps w 0 [] [] [] []) in *.
  unfold parse_full, parse_calls. change (ps_init P_lists w) with (at_conf w 0 (mk_conf 0 0 [] [])). rewrite G1, G2. destruct Hf as [Hf1 Hf2]. rewrite Hf1, Hf2. split; [reflexivity|].
  pose proof (Nat.pow_nonzero 2 n). replace (2 ^ S n) with (2 ^ n + 2 ^ n) by (simpl; lia). lia.
Qed.
