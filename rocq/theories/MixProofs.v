(** * The iterator and the reducers share a state: proofs *)
From Coq Require Import List Arith Lia Bool.
From Verif Require Import Lib Grammar LrModel LrSpec LrTop LrMono ParseModel Trees ParseSpec ParseInv ParseComplete GramFacts ParseTerm ParseTop ParseMore ParseAmb ParseRel MachProofs PullModel PullProofs EffModel EffSpec EffProofs MixModel MixSpec.
Import ListNotations.

Lemma read_stack {N T} (tix : T -> nat) (st : pstate N T) : ps_stack (ps_read tix st) = ps_stack st.
Proof. unfold ps_read. destruct (ps_buf st); auto. destruct (ps_iter st); auto. Qed.
Lemma read_twice {N T} (tix : T -> nat) (st : pstate N T) : ps_read tix (ps_read tix st) = ps_read tix st.
Proof. unfold ps_read. destruct (ps_buf st) as [|b l] eqn:Eb; [destruct (ps_iter st); reflexivity|rewrite Eb; reflexivity]. Qed.
Lemma step_read {N T E} (tix : T -> nat) (P : parser N T E) st : parse_step tix P (ps_read tix st) = parse_step tix P st.
Proof. unfold parse_step. rewrite read_twice. reflexivity. Qed.
Lemma error_read {N T E} (tix : T -> nat) (P : parser N T E) st : step_error tix P (ps_read tix st) = step_error tix P st.
Proof. unfold step_error. rewrite read_twice. reflexivity. Qed.
(** what a turn that is not a recovery does to the buffer and the tokens *)
Lemma step_buf {N T E} (tix : T -> nat) (P : parser N T E) s s' : step_error tix P s = None -> parse_step tix P s = inl s' ->
  ps_buf s' = match step_call tix P s with Some _ => ps_buf (ps_read tix s) | None => tl (ps_buf (ps_read tix s)) end.
Proof.
  unfold step_error, step_call, parse_step. cbv zeta. destruct (ps_buf (ps_read tix s)) as [|[t i] buf] eqn:Eb; [discriminate|].
  destruct (act (pr_tab P) (ps_state (ps_read tix s)) t) as [[[q|k|]|]| |]; intros He; try discriminate.
  - destruct t; intros H; try discriminate; injection H as <-; reflexivity.
  - destruct (nth_error (p_rules (pr_tab P)) k) as [r|]; [|discriminate]. destruct (_ <? _); [discriminate|]. destruct (reduce_args _ 0 _) as [args| |]; try discriminate.
    destruct (nth_error (pr_gens P) k) as [g|]; [|discriminate]. destruct (g args) as [v|e|]; try discriminate.
    destruct (aget _ _ (p_goto (pr_tab P))) as [row|]; [|discriminate]. destruct (aget _ (r_lhs r) row) as [q|]; [|discriminate]. intros H. injection H as <-. reflexivity.
  - destruct (ps_stack _) as [|[q [v j|k j|lo hi|]] l]; discriminate.
Qed.
Lemma step_syms {N T E} (tix : T -> nat) (P : parser N T E) s s' : parse_step tix P s = inl s' -> ps_syms s' = ps_syms (ps_read tix s).
Proof.
  unfold parse_step. cbv zeta. destruct (ps_buf (ps_read tix s)) as [|[t i] buf] eqn:Eb; [discriminate|].
  destruct (act (pr_tab P) (ps_state (ps_read tix s)) t) as [[[q|k|]|]| |]; try discriminate.
  - destruct t; intros H; try discriminate; injection H as <-; reflexivity.
  - destruct (nth_error (p_rules (pr_tab P)) k) as [r|]; [|discriminate]. destruct (_ <? _); [discriminate|]. destruct (reduce_args _ 0 _) as [args| |]; try discriminate.
    destruct (nth_error (pr_gens P) k) as [g|]; [|discriminate]. destruct (g args) as [v|e|]; try discriminate.
    destruct (aget _ _ (p_goto (pr_tab P))) as [row|]; [|discriminate]. destruct (aget _ (r_lhs r) row) as [q|]; [|discriminate]. intros H. injection H as <-. reflexivity.
  - destruct (ps_stack _) as [|[q [v j|k j|lo hi|]] l]; discriminate.
  - destruct (recover _ _ _ _ _ _ _ _) as [[[[[[c st1] rc] bk] hd] eh]|]; try discriminate. destruct (put_back _ _ _ _); try discriminate.
    destruct (act _ c TErr) as [[[q|k|]|]| |]; try discriminate. intros H; injection H as <-; auto.
Qed.
Lemma call_with {N T E} (tix : T -> nat) (P : parser N T E) st z : ps_buf st <> [] -> step_call tix P (with_iter st z) = step_call tix P st.
Proof.
  intros Hne. unfold step_call. assert (R1 : ps_read tix (with_iter st z) = with_iter st z) by (unfold ps_read; simpl; destruct (ps_buf st); congruence).
  assert (R2 : ps_read tix st = st) by (unfold ps_read; destruct (ps_buf st); congruence). rewrite R1, R2. reflexivity.
Qed.
(** the value returned lies on top of the stack *)
Lemma accept_top {N T E} (tix : T -> nat) (P : parser N T E) st v it : parse_step tix P st = inr (Ok (ROk v, it)) -> exists q i l, ps_stack st = (q, ENon v i) :: l.
Proof.
  intros Es. unfold parse_step in Es. cbv zeta in Es. rewrite (read_stack tix st) in Es.
  destruct (ps_buf (ps_read tix st)) as [|[t i] buf]; [discriminate|]. destruct (act _ _ t) as [[[q|k'|]|]| |]; try discriminate.
  - destruct t; discriminate.
  - destruct (nth_error (p_rules _) k') as [r|]; [|discriminate]. destruct (_ <? _); [discriminate|]. destruct (reduce_args _ 0 _) as [x| |]; try discriminate.
    destruct (nth_error _ k') as [gg|]; [|discriminate]. destruct (gg x); try discriminate. destruct (aget _ _ _); [|discriminate]. destruct (aget _ _ _); discriminate.
  - destruct (ps_stack st) as [|[q [v' j|k j|lo hi|]] l]; try discriminate. injection Es as <- _. eauto.
  - match goal with H : context [recover ?a ?b ?c ?d ?e ?f ?g ?h] |- _ => destruct (recover a b c d e f g h) as [[[[[[cur st'] rc] bk] hd] eh]|] end; [|discriminate].
    destruct (put_back _ _ _ _); try discriminate. destruct (act _ _ _) as [[[q|k|]|]| |]; discriminate.
Qed.
(** the arguments of a call are those on the stack *)
Lemma call_vals {N T E} (tix : T -> nat) (P : parser N T E) st k args : step_call tix P st = Some (k, args) -> Forall2 val_rel (map snd (rev (firstn (length args) (ps_stack st)))) args.
Proof.
  intros C2. unfold step_call in C2. rewrite (read_stack tix st) in C2.
  destruct (ps_buf (ps_read tix st)) as [|[t i] buf]; [discriminate|]. destruct (act _ _ t) as [[[q|k'|]|]| |]; try discriminate.
  destruct (nth_error (p_rules _) k') as [r|]; [|discriminate]. cbv zeta in C2. destruct (length (ps_stack st) <? length (r_rhs r)) eqn:El; [discriminate|]. apply Nat.ltb_ge in El.
  destruct (reduce_args _ 0 _) as [a| |] eqn:Ea; try discriminate. injection C2 as -> ->. apply args_vals in Ea. pose proof (F2_len _ _ _ Ea) as Hl. rewrite map_length, rev_length, firstn_length in Hl.
  assert (length args = length (r_rhs r)) as -> by lia. auto.
Qed.
Lemma F2_eq {A} (a b : list A) : Forall2 eq a b -> a = b.
Proof. induction 1; congruence. Qed.

Lemma gmap_len {A B E} (f : A -> gres B E) l : forall bs, gmap f l = GOk bs -> length bs = length l.
Proof.
  induction l as [|a l IH]; simpl; intros bs H; [injection H as <-; auto|]. destruct (f a) as [b| |]; try discriminate. simpl in H.
  destruct (gmap f l) as [r| |]; try discriminate. simpl in H. injection H as <-. simpl. f_equal. auto.
Qed.

(** ** The answers of the iterator *)
Lemma answers_some {T} (l z : list T) : answers (map Some l) (l ++ z).
Proof.
  intros i y H. destruct (nth_error l i) as [x|] eqn:Ex.
  - rewrite (map_nth_error Some _ _ Ex) in H. injection H as <-. rewrite nth_error_app1; [auto|]. apply nth_error_Some. congruence.
  - apply nth_error_None in Ex. assert (nth_error (map Some l) i = None) as E by (apply nth_error_None; rewrite map_length; auto). congruence.
Qed.
Lemma answers_end {T} (l : list T) : answers (map Some l ++ [None]) l.
Proof.
  intros i y H. destruct (Nat.lt_ge_cases i (length l)) as [Hi|Hi].
  - rewrite nth_error_app1 in H by (rewrite map_length; auto). pose proof (answers_some l [] i y H) as E. rewrite app_nil_r in E. auto.
  - rewrite nth_error_app2 in H by (rewrite map_length; auto). rewrite map_length in H. destruct (i - length l) as [|[|n]] eqn:Ei; simpl in H; try discriminate. injection H as <-. symmetry. apply nth_error_None. lia.
Qed.

(** ** Evaluation one token ahead *)
Section Ahead.
  Context {M N T E : Type} (next : M -> res (option T) * M) (gs : list (ereducer M N T E)) (m0 : M).
  Notation aveE := (ave next gs).
  Definition full (ts : list tree) : gres (list (arg N T)) E * @ahead M T :=
    let (r, c) := advance (E := E) next (m0, None, []) in
    match r with GOk _ => emap aveE ts c | GErr e => (GErr e, c) | GPanic => (GPanic, c) end.
  Lemma full_app ts1 ts2 : full (ts1 ++ ts2) = match full ts1 with
    | (GOk b1, c1) => let (r, c2) := emap aveE ts2 c1 in (gbind r (fun b2 => GOk (b1 ++ b2)), c2)
    | (GErr e, c1) => (GErr e, c1)
    | (GPanic, c1) => (GPanic, c1)
    end.
  Proof. unfold full. destruct (advance next (m0, None, [])) as [[u|e|] c]; auto. apply emap_app. Qed.
  Lemma emap_one t c : emap aveE [t] c = (gbind (fst (aveE t c)) (fun a => GOk [a]), snd (aveE t c)).
  Proof. cbn [emap]. destruct (aveE t c) as [[a|e|] c1]; reflexivity. Qed.
  Lemma evaluate_full t : evaluate_ahead next gs t m0 = (match full [t] with (GOk [a], c) => GOk a | (GOk _, _) => GPanic | (GErr e, _) => GErr e | (GPanic, _) => GPanic end, fst (fst (snd (full [t]))), snd (snd (full [t]))).
  Proof.
    unfold evaluate_ahead, full. destruct (advance next (m0, None, [])) as [[u|e|] c]; [|destruct c as [[? ?] ?]; reflexivity|destruct c as [[? ?] ?]; reflexivity].
    rewrite emap_one. destruct (aveE t c) as [[a|e|] [[m la] ys]]; reflexivity.
  Qed.

  Lemma advance_grows c : exists l, snd (snd (advance (E := E) next c)) = snd c ++ l.
  Proof. destruct c as [[m la] ys]. simpl. destruct (next m) as [[y| |] m']; simpl; [exists [y]; auto| |]; exists []; rewrite app_nil_r; auto. Qed.
  Lemma emap_grows (f : tree -> @ahead M T -> gres (arg N T) E * @ahead M T) ts : Forall (fun t => forall c, exists l, snd (snd (f t c)) = snd c ++ l) ts ->
    forall c, exists l, snd (snd (emap f ts c)) = snd c ++ l.
  Proof.
    induction 1 as [|t ts Ht _ IH]; intros c; [exists []; simpl; rewrite app_nil_r; auto|]. cbn [emap]. destruct (Ht c) as [l Hl]. destruct (f t c) as [[a|e|] c1]; simpl in *; eauto.
    destruct (IH c1) as [l' Hl']. destruct (emap f ts c1) as [r c2]; simpl in *. exists (l ++ l'). rewrite Hl', Hl, app_assoc. auto.
  Qed.
  Lemma ave_grows t : forall c, exists l, snd (snd (aveE t c)) = snd c ++ l.
  Proof.
    induction t as [i|lo hi|k ts IH] using tree_ind'; intros c; cbn [ave].
    - destruct c as [[m [x|]] ys]; [|exists []; simpl; rewrite app_nil_r; auto]. destruct (advance_grows (m, Some x, ys)) as [l Hl].
      destruct (advance next (m, Some x, ys)) as [r c']. exists l. exact Hl.
    - exists []. rewrite app_nil_r. auto.
    - destruct (emap_grows _ _ IH c) as [l Hl]. destruct (emap aveE ts c) as [[args|e|] [[m la] ys]]; simpl in *; eauto. destruct (ecall gs k m args). simpl. eauto.
  Qed.
  Lemma aves_grow ts c : exists l, snd (snd (emap aveE ts c)) = snd c ++ l.
  Proof. apply emap_grows. apply Forall_forall. intros t _. apply ave_grows. Qed.

  (** the evaluation goes on *)
  Definition ext (a b : gres (list (arg N T)) E * @ahead M T) : Prop :=
    match fst a with
    | GOk _ => exists l, snd (snd b) = snd (snd a) ++ l
    | GErr _ | GPanic => b = a
    end.
  Lemma ext_refl a : ext a a.
  Proof. unfold ext. destruct (fst a); auto. exists []. rewrite app_nil_r. auto. Qed.
  Lemma ext_trans a b c : ext a b -> ext b c -> ext a c.
  Proof.
    unfold ext. destruct a as [[va|ea|] ca]; simpl; intros H1 H2; [|subst; auto|subst; auto]. destruct H1 as [l H1]. destruct b as [[vb|eb|] cb]; simpl in *.
    - destruct H2 as [l' H2]. rewrite H2, H1. exists (l ++ l'). rewrite app_assoc. auto.
    - subst c. simpl. eauto.
    - subst c. simpl. eauto.
  Qed.
  Lemma ext_app ts1 ts2 : ext (full ts1) (full (ts1 ++ ts2)).
  Proof.
    rewrite full_app. unfold ext. destruct (full ts1) as [[v|e|] c1]; simpl; auto. destruct (aves_grow ts2 c1) as [l Hl]. destruct (emap aveE ts2 c1) as [r c2]. simpl in *. eauto.
  Qed.
  Lemma full_node ts1 ts2 k : full (ts1 ++ [Node k ts2]) = match full (ts1 ++ ts2) with
    | (GOk b, (m, la, ys)) => let (r, m') := ecall gs k m (skipn (length ts1) b) in (gbind r (fun v => GOk (firstn (length ts1) b ++ [NonTerminal v])), (m', la, ys))
    | (GErr e, c) => (GErr e, c)
    | (GPanic, c) => (GPanic, c)
    end.
  Proof.
    rewrite !full_app. destruct (full ts1) as [[b1|e|] c1] eqn:E1; auto. rewrite emap_one. cbn [ave]. destruct (emap aveE ts2 c1) as [[b2|e|] [[m la] ys]]; cbn [gbind fst snd]; auto.
    assert (Hl : length b1 = length ts1).
    { unfold full in E1. destruct (advance next (m0, None, [])) as [[u|e|] c]; try discriminate. eapply emap_len; eauto. }
    rewrite <- Hl, skipn_app, skipn_all, Nat.sub_diag, firstn_app, firstn_all, Nat.sub_diag. simpl. rewrite app_nil_r.
    destruct (ecall gs k m b2) as [[v|e|] m']; reflexivity.
  Qed.
  Lemma ext_node ts1 ts2 k : ext (full (ts1 ++ ts2)) (full (ts1 ++ [Node k ts2])).
  Proof.
    rewrite full_node. unfold ext. destruct (full (ts1 ++ ts2)) as [[b|e|] [[m la] ys]]; simpl; auto. destruct (ecall gs k m _) as [r m']. simpl. exists []. rewrite app_nil_r. auto.
  Qed.
End Ahead.

Section Mix.
  Context {M N T E : Type} (tix : T -> nat) (next : M -> res (option T) * M).
  Variables (s : esyntax M N T E) (P : eparser M N T E) (ws : list warning) (ss : nat) (m0 : M).
  Hypothesis Hm : made (skel s) (skel_parser s P) ws ss.
  Hypothesis Hgs : ep_gens P = egens s ++ [fun m _ => (GPanic, m)].
  Hypothesis Hret : forall m, fst (next m) <> OutOfFuel.

  (** the answers of the iterator in a run are the tokens [w], as far as the run goes *)
  Fixpoint follows (w : list T) (fuel : nat) (ms : M * pstate N T) : Prop :=
    match fuel with
    | 0 => True
    | S f =>
        match ps_buf (snd ms), fst (next (fst ms)) with
        | [], Ok None => nth_error w (length (ps_syms (snd ms))) = None
        | [], Ok (Some x) => nth_error w (length (ps_syms (snd ms))) = Some x /\ match mix_step tix next P ms with inl ms' => follows w f ms' | inr _ => True end
        | _, _ => match mix_step tix next P ms with inl ms' => follows w f ms' | inr _ => True end
        end
    end.
  Lemma turn_syms m st ms' : mix_turn tix P m st = inl ms' -> ps_buf st <> [] -> ps_syms (snd ms') = ps_syms st.
  Proof.
    unfold mix_turn, eff_step. intros H Hb. destruct (parse_step tix (parser_at P m) st) as [st'|r] eqn:Es; [|destruct r as [[o it]| |]; discriminate].
    injection H as <-. apply step_syms in Es. unfold ps_read in Es. simpl. destruct (ps_buf st); congruence.
  Qed.
  Lemma some_tokens fuel : forall m st, exists u, follows (ps_syms st ++ u) fuel (m, st).
  Proof.
    induction fuel as [|fuel IH]; intros m st; [exists []; exact I|]. cbn [follows fst snd]. destruct (ps_buf st) as [|b buf] eqn:Eb.
    - cbn [mix_step]. rewrite Eb. destruct (next m) as [[[x|]| |] m1]; cbn [fst].
      + destruct (mix_turn tix P m1 (fill tix st x)) as [[m2 st2]|r] eqn:Et.
        * destruct (IH m2 st2) as [u Hu]. apply turn_syms in Et; [|discriminate]. cbn [snd fill ps_syms] in Et. rewrite Et, <- app_assoc in Hu. exists (x :: u). split; [|exact Hu].
          rewrite nth_error_app2, Nat.sub_diag by lia. reflexivity.
        * exists [x]. split; auto. rewrite nth_error_app2, Nat.sub_diag by lia. reflexivity.
      + exists []. apply nth_error_None. rewrite app_nil_r. lia.
      + exists []. exact I.
      + exists []. exact I.
    - cbn [mix_step]. rewrite Eb. destruct (mix_turn tix P m st) as [[m2 st2]|r] eqn:Et; [|exists []; exact I].
      destruct (IH m2 st2) as [u Hu]. apply turn_syms in Et; [|congruence]. cbn [snd] in Et. rewrite Et in Hu. exists u. exact Hu.
  Qed.

  Variable w : list T.
  Notation skp := (skel_parser s P).
  Notation rs := (augment (gram (skel s)) (es_start s) ss).
  Notation invat := (inv_at tix (gram (skel s)) (es_start s) ss skp w).
  Notation Rv := (fun (_ : unit) (_ : N) => True).
  Notation Rt := (@eq T).
  Notation ev' := (ev (pr_gens skp) w).
  Notation fullE := (full next (ep_gens P) m0).
  Notation wholeT := (whole tix s ss w).

  Lemma finish fuel : forall st g ts pos u it, calm tix s P fuel st -> invat st g ts pos -> spans ts pos ->
    loop (parse_step tix skp) fuel st = Ok (ROk u, it) -> exists t, wholeT t /\ ext (fullE ts) (fullE [t]).
  Proof.
    induction fuel as [|fuel IH]; intros st g ts pos u it Hcalm Hinv Hsp Hl; [discriminate|]. simpl in Hl.
    destruct (cases tix (skel s) skp ws ss w Hm _ _ _ _ Hinv) as (d & Hd & Hc). destruct d as [[q|k|]|]; cbn [step_case] in Hc.
    - destruct Hc as (_ & _ & s' & Hs & Hi). rewrite Hs in Hl. destruct (IH s' _ _ _ u it (calm_step _ _ _ _ _ _ Hcalm Hs) Hi (spans_shift _ _ Hsp) Hl) as (t & H1 & H2).
      exists t. split; auto. eapply ext_trans; [apply ext_app|exact H2].
    - destruct Hc as [(r0 & _ & _ & Hs & _)|(r0 & dd & ts1 & ts2 & args & gen & Hr0 & _ & _ & _ & Ets & _ & Htw & Ha & Hg & Hc)]; [rewrite Hs in Hl; discriminate|].
      destruct (gen args) as [v|e|]; [|destruct Hc as [it' Hc]; rewrite Hc in Hl; discriminate|rewrite Hc in Hl; discriminate].
      destruct Hc as (s' & Hs & Hi). rewrite Hs in Hl. subst ts.
      destruct (IH s' _ _ _ u it (calm_step _ _ _ _ _ _ Hcalm Hs) Hi (spans_reduce _ _ _ _ Hsp) Hl) as (t & H1 & H2).
      exists t. split; auto. eapply ext_trans; [apply (ext_node _ _ _ ts1 ts2 k)|exact H2].
    - destruct Hc as (_ & Hp & Hg & t & v & Et & _ & Hs). pose proof (accept_tree tix s P ws ss w Hm _ _ _ _ Hinv Hsp Hp Hg t Et) as H1. subst ts. exists t. split; auto. apply ext_refl.
    - destruct Hc as (_ & [(it' & Hs & _)|(s' & Hs & Hx & _)]); [rewrite Hs in Hl; discriminate|]. exfalso. eapply calm_none; eauto.
  Qed.

  (** the states of the two runs *)
  Record msim (sk : pstate unit T) (st : pstate N T) (m : M) (g : list sym) (ts : list tree) (pos : nat) (vals : list (arg N T)) : Prop := {
    ms_inv : invat sk g ts pos;
    ms_span : spans ts pos;
    ms_rel : srel Rv Rt sk (with_iter st (ps_iter sk));
    ms_shape : exists kvals, gmap ev' ts = GOk kvals /\ Forall2 (arg_rel Rv Rt) kvals vals;
    ms_vals : Forall2 val_rel (map snd (rev (ps_stack st))) vals }.
  (** before and after the reading of a token *)
  Definition before (st : pstate N T) (m : M) (ts : list tree) (vals : list (arg N T)) : Prop :=
    ps_buf st = [] /\ exists la, fullE ts = (let (r, c) := advance next (m, la, map Some (ps_syms st)) in (gbind r (fun _ => GOk vals), c)).
  Definition after (st : pstate N T) (m : M) (ts : list tree) (pos : nat) (vals : list (arg N T)) : Prop :=
    (exists b, ps_buf st = [b]) /\ fullE ts = (GOk vals, (m, nth_error w pos, map Some (ps_syms st) ++ match nth_error w pos with Some _ => [] | None => [None] end)).

  Lemma syms_same sk st z : srel Rv Rt sk (with_iter st z) -> ps_syms st = ps_syms sk.
  Proof. intros H. pose proof (F2_eq _ _ (sr_syms _ _ _ _ H)) as H'. auto. Qed.
  Lemma inv_ys sk g ts pos : invat sk g ts pos -> (exists b, ps_buf sk = [b]) ->
    answers (map Some (ps_syms sk) ++ match nth_error w pos with Some _ => [] | None => [None] end) w /\
    ((exists x, nth_error w pos = Some x /\ ps_buf sk = [(TSym (tix x), pos)] /\ length (ps_syms sk) = S pos) \/ (nth_error w pos = None /\ ps_buf sk = [(TEoi, 0)])).
  Proof.
    intros H [b Hb]. destruct (read_inv tix _ _ _ _ _ (md_len _ _ _ _ Hm) _ _ _ _ H) as [_ (t & i & buf & Eb & Hla)].
    assert (ER : ps_read tix sk = sk) by (unfold ps_read; rewrite Hb; reflexivity). rewrite ER in *. pose proof (inv_input _ _ _ _ _ _ _ _ _ _ H) as Hin.
    destruct Hla as [(x & Hx & -> & -> & Hlt & Hbuf)|(-> & -> & Hp & -> & Hit & Hl)].
    - rewrite Hx. split; [rewrite app_nil_r; rewrite Hin at 1; apply answers_some|]. left. exists x. rewrite Hb in Eb. injection Eb as -> <-. split; auto. split; auto.
      destruct (nth_error (ps_syms sk) (S pos)) as [y|] eqn:Ey; [|apply nth_error_None in Ey; lia].
      rewrite (skipn_cons _ _ _ Ey) in Hbuf. discriminate.
    - assert (Hn : nth_error w pos = None) by (apply nth_error_None; lia). rewrite Hn. rewrite Hit, app_nil_r in Hin. rewrite <- Hin. split; [apply answers_end|]. right. auto.
  Qed.
  Lemma read_msim sk st m g ts pos vals y m1 : msim sk st m g ts pos vals -> before st m ts vals -> next m = (Ok y, m1) -> y = nth_error w (length (ps_syms st)) ->
    let st1 := match y with Some x => fill tix st x | None => fill_end st end in
    msim (ps_read tix sk) st1 m1 g ts pos vals /\ after st1 m1 ts pos vals /\ mix_step tix next P (m, st) = mix_turn tix P m1 st1 /\ (y = None -> ps_buf st1 = [(TEoi, 0)]).
  Proof.
    intros [Hinv Hsp Hrel Hsh Hv] [Hb [la Hf]] Hn Hy st1. pose proof (syms_same _ _ _ Hrel) as Hsy.
    assert (Hbk : ps_buf sk = []) by (rewrite (sr_buf _ _ _ _ Hrel); auto).
    assert (Hpos : pos = length (ps_syms sk)).
    { destruct (inv_buf _ _ _ _ _ _ _ _ _ _ Hinv) as [H|[H _]]; [|congruence]. pose proof (inv_pos _ _ _ _ _ _ _ _ _ _ Hinv). destruct (nth_error (ps_syms sk) pos) as [x|] eqn:Ex; [|apply nth_error_None in Ex; lia].
      rewrite (skipn_cons _ _ _ Ex), Hbk in H. discriminate. }
    assert (Hin : w = ps_syms sk ++ ps_iter sk) by apply (inv_input _ _ _ _ _ _ _ _ _ _ Hinv).
    assert (Hy' : y = nth_error (ps_iter sk) 0) by (rewrite Hy, Hsy, Hin, nth_error_app2, Nat.sub_diag by lia; reflexivity).
    assert (Hst : with_iter st1 (ps_iter (ps_read tix sk)) = ps_read tix (with_iter st (ps_iter sk))).
    { unfold st1, ps_read. cbn [with_iter ps_buf ps_iter]. rewrite Hb, Hbk, Hy'. destruct (ps_iter sk) as [|x it]; reflexivity. }
    assert (Hy2 : nth_error w pos = y) by (rewrite Hpos, <- Hsy; auto).
    assert (Hf1 : fullE ts = (GOk vals, (m1, y, map Some (ps_syms st) ++ [y]))) by (rewrite Hf; cbn [advance]; rewrite Hn; reflexivity).
    split; [|split; [|split]].
    - constructor; auto.
      + exact (proj1 (read_inv tix _ _ _ _ _ (md_len _ _ _ _ Hm) _ _ _ _ Hinv)).
      + rewrite Hst. apply read_rel; auto. congruence.
      + unfold st1. destruct y; exact Hv.
    - split; [unfold st1; destruct y; cbn [fill fill_end ps_buf]; eauto|]. rewrite Hf1, Hy2. unfold st1. destruct y as [x|]; cbn [fill fill_end ps_syms]; rewrite ?map_app, ?app_nil_r; reflexivity.
    - cbn [mix_step]. rewrite Hb, Hn. unfold st1. destruct y; reflexivity.
    - unfold st1. intros ->. reflexivity.
  Qed.

  Lemma mturn fuel sk st m g ts pos vals : calm tix s P (S fuel) sk -> msim sk st m g ts pos vals -> after st m ts pos vals ->
    (exists sk' st' m' g' ts' pos' vals', parse_step tix skp sk = inl sk' /\ mix_turn tix P m st = inl (m', st') /\ msim sk' st' m' g' ts' pos' vals' /\
       (before st' m' ts' vals' \/ after st' m' ts' pos' vals') /\ (ps_buf st = [(TEoi, 0)] -> ps_buf st' = [(TEoi, 0)])) \/
    (exists sk' g' ts' pos' r m' la ys, parse_step tix skp sk = inl sk' /\ invat sk' g' ts' pos' /\ spans ts' pos' /\ fullE ts' = (r, (m', la, ys)) /\ answers ys w /\
       ((exists x, r = GErr x /\ mix_turn tix P m st = inr (Ok (Ok (RReducer x), m'))) \/ (r = GPanic /\ mix_turn tix P m st = inr (Ok (Panic, m'))))) \/
    (exists t u v la ys, parse_step tix skp sk = inr (Ok (ROk u, [])) /\ wholeT t /\ fullE [t] = (GOk [NonTerminal v], (m, la, ys)) /\ answers ys w /\ mix_turn tix P m st = inr (Ok (Ok (ROk v), m))) \/
    (exists r r', parse_step tix skp sk = inr r /\ (forall u it, r <> Ok (ROk u, it)) /\ mix_turn tix P m st = inr r' /\ forall v m', r' <> Ok (Ok (ROk v), m')).
  Proof.
    intros Hcalm [Hinv Hsp Hrel (kvals & Hk & Hsh) Hvals] [[b Hb] Hf].
    assert (Hbk : ps_buf sk = [b]) by (rewrite (sr_buf _ _ _ _ Hrel); auto).
    assert (Hb0 : ps_buf st <> []) by congruence.
    pose proof (syms_same _ _ _ Hrel) as Hsy.
    assert (Erk : ps_read tix sk = sk) by (unfold ps_read; rewrite Hbk; reflexivity).
    assert (Ers : ps_read tix st = st) by (unfold ps_read; rewrite Hb; reflexivity).
    destruct (inv_ys _ _ _ _ Hinv (ex_intro _ b Hbk)) as [Hans Hla]. rewrite <- Hsy in Hans.
    pose proof (turn_rel tix tix Rv Rt (kind_eq tix) skp (parser_at P m) eq_refl sk (with_iter st (ps_iter sk)) Hrel) as HT.
    pose proof (err_rel tix s P sk _ m Hrel) as Herr. rewrite (call_with tix (parser_at P m) st) in HT by auto.
    rewrite (step_with tix (parser_at P m) st) in HT by auto.
    assert (Herr' : step_error tix (parser_at P m) (with_iter st (ps_iter sk)) = step_error tix (parser_at P m) st).
    { unfold step_error. rewrite Ers. assert (ps_read tix (with_iter st (ps_iter sk)) = with_iter st (ps_iter sk)) as -> by (unfold ps_read; simpl; rewrite Hb; reflexivity). reflexivity. }
    rewrite Herr' in Herr. clear Herr'.
    destruct (cases tix (skel s) skp ws ss w Hm _ _ _ _ Hinv) as (d & Hd & Hc). rewrite (err_spec tix (skel s) skp ws ss w Hm _ _ _ _ _ Hinv Hd) in Herr.
    assert (Estep : mix_turn tix P m st =
      let m' := match step_call tix (parser_at P m) st with Some (k, args) => snd (ecall (ep_gens P) k m args) | None => m end in
      match parse_step tix (parser_at P m) st with
      | inl s' => inl (m', s')
      | inr (Ok (o, _)) => inr (Ok (Ok o, m'))
      | inr Panic => inr (Ok (Panic, m'))
      | inr OutOfFuel => inr OutOfFuel
      end).
    { unfold mix_turn, eff_step. pose proof (step_fuel tix (parser_at P m) st) as Z. destruct (parse_step tix (parser_at P m) st) as [st'|[[o it]| |]]; cbv zeta; auto; congruence. }
    rewrite Estep. clear Estep. cbv zeta. destruct d as [[q|k|]|]; cbn [step_case] in Hc.
    - (* shift *)
      left. destruct Hc as (Hcall & Hlt & s' & Hs & Hi). rewrite Hcall in HT. rewrite Hs in *.
      destruct (step_call tix (parser_at P m) st) as [|] eqn:C2; [destruct HT|].
      pose proof (step_stack tix (parser_at P m) st) as Hst. pose proof (step_buf tix (parser_at P m) st) as Hsb. pose proof (step_syms tix (parser_at P m) st) as Hss.
      destruct (parse_step tix (parser_at P m) st) as [st'|[[o it]| |]]; simpl in HT; try tauto.
      specialize (Hst st' (eq_sym Herr) eq_refl). specialize (Hsb st' (eq_sym Herr) eq_refl). specialize (Hss st' eq_refl). rewrite C2 in Hst, Hsb. rewrite Ers in Hsb, Hss. destruct Hst as (qq & e & Hst & He).
      destruct Hla as [(x & Ex & Hbx & Hlx)|[Ex _]]; [|apply nth_error_None in Ex; lia]. rewrite Ex in Hf. rewrite app_nil_r in Hf.
      exists s', st', m, (g ++ [TM (la_at tix w pos)]), (ts ++ [Leaf pos]), (S pos), (vals ++ [Terminal x]).
      split; [reflexivity|]. split; [reflexivity|]. split; [|split].
      + constructor; [exact Hi|apply spans_shift; auto| | |].
        * assert (Hit : ps_iter s' = ps_iter sk).
          { pose proof (F2_eq _ _ (sr_iter _ _ _ _ HT)) as H'. auto. }
          rewrite Hit. exact HT.
        * exists (kvals ++ [Terminal x]). split; [|apply Forall2_app; auto; constructor; [reflexivity|constructor]]. rewrite gmap_app, Hk. cbn [gbind gmap ev]. rewrite Ex. reflexivity.
        * rewrite Hst. simpl. rewrite map_app. apply Forall2_app; auto. constructor; [|constructor]. destruct e; simpl; tauto.
      + left. split; [rewrite Hsb, Hb; reflexivity|]. exists (Some x). rewrite full_app, Hf, emap_one. rewrite Hss. cbn [ave]. destruct (advance next (m, Some x, map Some (ps_syms st))) as [[u|e'|] c]; reflexivity.
      + intros Hbe. exfalso. rewrite Hbk in Hbx. rewrite Hb in Hbe. congruence.
    - (* reduce *)
      destruct Hc as [(r0 & _ & Hcall & Hs & Hw & Hin)|(r0 & dd & ts1 & ts2 & args & gen & Hr0 & _ & _ & Hcall & Ets & _ & Htw & Ha & Hg & Hc)]; rewrite Hcall in HT.
      { right; right; right. rewrite Hs in *. destruct (step_call tix (parser_at P m) st) as [|] eqn:C2; [destruct HT|].
        destruct (parse_step tix (parser_at P m) st) as [|[[o i]| |]]; simpl in HT; try tauto. eexists; eexists; repeat split; try discriminate. }
      destruct (step_call tix (parser_at P m) st) as [[k2 args2]|] eqn:C2; [|destruct HT]. destruct HT as (<- & Hargs & HT). rewrite call_at in HT.
      destruct Hd as (_ & _ & Hkk & _).
      assert (Egen : gen args = GOk tt).
      { apply (gens_old (skel s) skp ws ss Hm k gen Hkk) in Hg. unfold gens, skel in Hg. cbn [sx_rules] in Hg. rewrite map_map in Hg. rewrite nth_error_map in Hg.
        destruct (nth_error (es_rules s) k); [|discriminate]. simpl in Hg. injection Hg as <-. reflexivity. }
      rewrite Egen in Hc. destruct Hc as (s' & Hs & Hi). rewrite Hs in *. unfold call in HT at 1. rewrite Hg in HT. specialize (HT tt).
      (* the values of the children *)
      rewrite Ets, gmap_app in Hk. destruct (gmap ev' ts1) as [kv1|e|] eqn:Ek1; try discriminate. cbn [gbind] in Hk. rewrite Ha in Hk. cbn [gbind] in Hk. injection Hk as <-.
      assert (Hlen1 : length kv1 = length ts1).
      { eapply gmap_len; eauto. }
      apply Forall2_app_inv_l in Hsh as (vals1 & vals2 & Hsh1 & Hsh2 & ->).
      assert (Hlv1 : length vals1 = length ts1) by (apply F2_len in Hsh1; lia).
      assert (Hn : length args2 = length vals2) by (apply F2_len in Hargs; apply F2_len in Hsh2; lia).
      assert (Hle : length vals2 <= length (ps_stack st)).
      { apply F2_len in Hvals. rewrite map_length, rev_length, app_length in Hvals. lia. }
      destruct (vals_split _ _ _ [] _ Hvals eq_refl Hle) as [Hv2 Hv1].
      assert (Eargs : args2 = vals2).
      { pose proof (call_vals _ _ _ _ _ C2) as Hca. rewrite Hn in Hca. eapply (same_args tix); [exact Hca|exact Hv2|exact Hargs|exact Hsh2]. }
      subst args2.
      destruct (ecall (ep_gens P) k m vals2) as [rk mk] eqn:Eck. cbn [fst snd] in *.
      pose proof (call_fails tix _ _ _ _ C2) as HF. rewrite call_at, Eck in HF. cbn [fst] in HF.
      assert (Enode : fullE (ts1 ++ [Node k ts2]) = (gbind rk (fun v => GOk (vals1 ++ [NonTerminal v])), (mk, nth_error w pos, map Some (ps_syms st) ++ match nth_error w pos with Some _ => [] | None => [None] end))).
      { rewrite full_node. rewrite <- Ets, Hf. rewrite <- Hlv1, skipn_app, skipn_all, Nat.sub_diag, firstn_app, firstn_all, Nat.sub_diag. simpl. rewrite app_nil_r, Eck. reflexivity. }
      assert (Hsp' : spans (ts1 ++ [Node k ts2]) pos) by (apply spans_reduce; rewrite <- Ets; auto).
      destruct rk as [v|e|].
      + left. specialize (HT v Egen eq_refl I). pose proof (step_stack tix (parser_at P m) st) as Hst. pose proof (step_buf tix (parser_at P m) st) as Hsb. pose proof (step_syms tix (parser_at P m) st) as Hss.
        destruct (parse_step tix (parser_at P m) st) as [st'|[[o it]| |]]; simpl in HT; try tauto.
        specialize (Hst st' (eq_sym Herr) eq_refl). specialize (Hsb st' (eq_sym Herr) eq_refl). specialize (Hss st' eq_refl). rewrite C2 in Hst, Hsb. rewrite Ers in Hsb, Hss.
        destruct Hst as (qq & i & v' & Hcv & _ & _ & Hst). rewrite call_at, Eck in Hcv. cbn [fst] in Hcv. injection Hcv as <-.
        exists s', st', mk, (dd ++ [NT (r_lhs r0)]), (ts1 ++ [Node k ts2]), pos, (vals1 ++ [NonTerminal v]).
        split; [reflexivity|]. split; [reflexivity|]. split; [|split].
        * constructor; auto.
          -- assert (Hit : ps_iter s' = ps_iter sk).
             { pose proof (F2_eq _ _ (sr_iter _ _ _ _ HT)) as H'. auto. }
             rewrite Hit. exact HT.
          -- exists (kv1 ++ [NonTerminal tt]). split; [|apply Forall2_app; [exact Hsh1|constructor; [exact I|constructor]]]. rewrite gmap_app, Ek1. cbn [gbind gmap ev]. rewrite Ha. cbn [gbind]. unfold call. rewrite Hg, Egen. reflexivity.
          -- rewrite Hst. simpl. rewrite map_app. apply Forall2_app; auto. constructor; [reflexivity|constructor].
        * right. split; [exists b; congruence|]. rewrite Enode, Hss. reflexivity.
        * congruence.
      + right; left. exists s', (dd ++ [NT (r_lhs r0)]), (ts1 ++ [Node k ts2]), pos. do 4 eexists. split; [reflexivity|]. split; [exact Hi|]. split; [exact Hsp'|]. split; [exact Enode|]. split; [exact Hans|].
        left. exists e. split; [reflexivity|]. destruct HF as [it ->]. reflexivity.
      + right; left. exists s', (dd ++ [NT (r_lhs r0)]), (ts1 ++ [Node k ts2]), pos. do 4 eexists. split; [reflexivity|]. split; [exact Hi|]. split; [exact Hsp'|]. split; [exact Enode|]. split; [exact Hans|].
        right. split; [reflexivity|]. rewrite HF. reflexivity.
    - (* accept *)
      right; right; left. destruct Hc as (Hcall & Hp & Hg & t & u & Et & _ & Hs). rewrite Hcall in HT. rewrite Hs in *.
      destruct (step_call tix (parser_at P m) st) as [|] eqn:C2; [destruct HT|].
      pose proof (accept_tree tix s P ws ss w Hm _ _ _ _ Hinv Hsp Hp Hg t Et) as H1. subst ts.
      destruct (parse_step tix (parser_at P m) st) as [|[[o i]| |]] eqn:Es; simpl in HT; try tauto. destruct HT as [_ Ho]. simpl in Ho. destruct o as [v| |]; try tauto.
      destruct (accept_top tix _ _ _ _ Es) as (q & i' & l & Htop). rewrite Htop in Hvals. simpl in Hvals. rewrite map_app in Hvals.
      assert (Hl1 : length vals = 1).
      { cbn [gmap] in Hk. destruct (ev' t); try discriminate. simpl in Hk. injection Hk as <-. apply F2_len in Hsh. simpl in Hsh. auto. }
      destruct vals as [|a [|]]; try discriminate. destruct l as [|x l].
      + simpl in Hvals. inversion Hvals as [|e1 a1 l1 l2 Hva _]; subst. destruct a as [v'|y|y]; simpl in Hva; try tauto. subst v'.
        exists t, u, v. do 2 eexists. split; [reflexivity|]. split; [exact H1|]. split; [exact Hf|]. split; [exact Hans|reflexivity].
      + apply F2_len in Hvals. rewrite !app_length, map_length, rev_length in Hvals. simpl in Hvals. lia.
    - (* a syntax error *)
      destruct Hc as (Hcall & [(it & Hs & _)|(s' & Hs & Hx & _)]); [|exfalso; eapply calm_none; eauto]. right; right; right. rewrite Hcall in HT. rewrite Hs in *.
      destruct (step_call tix (parser_at P m) st) as [|] eqn:C2; [destruct HT|]. destruct (parse_step tix (parser_at P m) st) as [|[[o i]| |]]; simpl in HT; try tauto.
      destruct HT as [_ Ho]. simpl in Ho. destruct o; try tauto. eexists; eexists; repeat split; try discriminate.
  Qed.

  (** what the run does, given the evaluation of the tree *)
  Definition mrun (r : gres (arg N T) E * M * list (option T)) (y : res (res (outcome N E) * M)) : Prop :=
    answers (snd r) w /\
    match fst (fst r) with
    | GOk (NonTerminal v) => y = Ok (Ok (ROk v), snd (fst r))
    | GOk _ => False
    | GErr e => y = Ok (Ok (RReducer e), snd (fst r))
    | GPanic => y = Ok (Panic, snd (fst r))
    end.
  Notation evalA t := (evaluate_ahead next (ep_gens P) t m0).

  (** one turn, with the reading *)
  Lemma mtrack fuel : forall sk st m g ts pos vals, calm tix s P fuel sk -> msim sk st m g ts pos vals -> before st m ts vals \/ after st m ts pos vals ->
    follows w fuel (m, st) \/ ps_buf st = [(TEoi, 0)] ->
    match loop (parse_step tix skp) fuel sk with
    | Ok (ROk _, _) => exists t, wholeT t /\ mrun (evalA t) (loop (mix_step tix next P) fuel (m, st))
    | _ => forall v m', loop (mix_step tix next P) fuel (m, st) <> Ok (Ok (ROk v), m')
    end.
  Proof.
    induction fuel as [|fuel IH]; intros sk st m g ts pos vals Hcalm Hsim Hba Hfo; [discriminate|].
    assert (Hcalm1 : calm tix s P (S fuel) (ps_read tix sk)).
    { destruct Hcalm as [H|H]; [left; auto|right]. cbn [errors] in *. rewrite error_read, step_read. exact H. }
    (* a turn on a state that has been read *)
    assert (G : forall sk1 st1 m1, parse_step tix skp sk1 = parse_step tix skp sk -> calm tix s P (S fuel) sk1 -> msim sk1 st1 m1 g ts pos vals -> after st1 m1 ts pos vals ->
      (match mix_turn tix P m1 st1 with inl ms' => follows w fuel ms' | inr _ => True end \/ ps_buf st1 = [(TEoi, 0)]) ->
      mix_step tix next P (m, st) = mix_turn tix P m1 st1 ->
      match loop (parse_step tix skp) (S fuel) sk with
      | Ok (ROk _, _) => exists t, wholeT t /\ mrun (evalA t) (loop (mix_step tix next P) (S fuel) (m, st))
      | _ => forall v m', loop (mix_step tix next P) (S fuel) (m, st) <> Ok (Ok (ROk v), m')
      end).
    { intros sk1 st1 m1 Esk Hc1 Hs1 Ha1 Hf1 Est. cbn [loop]. rewrite Est, <- Esk.
      destruct (mturn fuel sk1 st1 m1 g ts pos vals Hc1 Hs1 Ha1) as [(sk' & st' & m' & g' & ts' & pos' & vals' & H1 & H2 & H3 & H4 & H5)|
        [(sk' & g' & ts' & pos' & r & m' & la & ys & H1 & H2 & H3 & H4 & H5 & H6)|[(t & u & v & la & ys & H1 & H2 & H3 & H4 & H5)|(r & r' & H1 & H2 & H3 & H4)]]].
      - rewrite H1, H2. eapply IH; eauto; [eapply calm_step; eauto|]. rewrite H2 in Hf1. destruct Hf1 as [Hf1|Hf1]; auto.
      - rewrite H1. destruct (loop (parse_step tix skp) fuel sk') as [[[u| |u] it']| |] eqn:El.
        2-5: destruct H6 as [(x & _ & ->)|(_ & ->)]; discriminate.
        destruct (finish fuel _ _ _ _ _ _ (calm_step _ _ _ _ _ _ Hc1 H1) H2 H3 El) as (t & Ht & He). exists t. split; auto. rewrite evaluate_full. unfold ext in He. rewrite H4 in He.
        destruct H6 as [(x & -> & ->)|(-> & ->)]; cbn [fst] in He; rewrite He; split; auto; reflexivity.
      - rewrite H1. exists t. split; auto. rewrite evaluate_full, H3, H5. split; auto; reflexivity.
      - rewrite H1, H3. destruct r as [[[u| |u] it']| |]; auto. exfalso. eapply H2; eauto. }
    destruct Hba as [Hb|Ha].
    - pose proof Hb as [Hbuf [la Hfull]]. destruct Hfo as [Hfo|Hfo]; [|congruence]. cbn [follows fst snd] in Hfo. rewrite Hbuf in Hfo.
      destruct (next m) as [[y| |] m1] eqn:En; cbn [fst] in Hfo.
      + assert (Hy : y = nth_error w (length (ps_syms st))) by (destruct y; [destruct Hfo; auto|auto]).
        destruct (read_msim _ _ _ _ _ _ _ _ _ Hsim Hb En Hy) as (R1 & R2 & R3 & R4).
        refine (G _ _ m1 (step_read tix skp sk) Hcalm1 R1 R2 _ R3). destruct y as [x|]; [left|right; auto]. destruct Hfo as [_ Hfo]. rewrite R3 in Hfo. exact Hfo.
      + assert (Eloop : loop (mix_step tix next P) (S fuel) (m, st) = Ok (Panic, m1)) by (cbn [loop mix_step]; rewrite Hbuf, En; reflexivity). rewrite Eloop.
        assert (Hp : fullE ts = (GPanic, (m1, la, map Some (ps_syms st)))) by (rewrite Hfull; cbn [advance]; rewrite En; reflexivity).
        destruct (loop (parse_step tix skp) (S fuel) sk) as [[[u| |u] it']| |] eqn:El; try discriminate.
        destruct Hsim as [Hinv Hsp Hrel _ _]. destruct (finish (S fuel) sk g ts pos u it' Hcalm Hinv Hsp El) as (t & Ht & He).
        exists t. split; auto. rewrite evaluate_full. unfold ext in He. rewrite Hp in He. cbn [fst] in He. rewrite He. split; [|reflexivity]. cbn [fst snd].
        rewrite (syms_same _ _ _ Hrel). rewrite (inv_input _ _ _ _ _ _ _ _ _ _ Hinv) at 1. apply answers_some.
      + exfalso. apply (Hret m). rewrite En. reflexivity.
    - assert (Hne : exists b, ps_buf st = [b]) by apply Ha. destruct Hne as [b Hb].
      assert (Est : mix_step tix next P (m, st) = mix_turn tix P m st) by (cbn [mix_step]; rewrite Hb; reflexivity).
      refine (G sk st m eq_refl Hcalm Hsim Ha _ Est). destruct Hfo as [Hfo|Hfo]; [left|right; auto]. cbn [follows fst snd] in Hfo. rewrite Hb, Est in Hfo. exact Hfo.
  Qed.

  (** the run follows the tokens if the evaluation of every tree does *)
  Lemma agrees_follows fuel : forall sk st m g ts pos vals u it, calm tix s P fuel sk -> msim sk st m g ts pos vals -> before st m ts vals \/ after st m ts pos vals ->
    (forall t, wholeT t -> answers (snd (evalA t)) w) -> loop (parse_step tix skp) fuel sk = Ok (ROk u, it) -> follows w fuel (m, st).
  Proof.
    induction fuel as [|fuel IH]; intros sk st m g ts pos vals u it Hcalm Hsim Hba Hag Hl; [discriminate|].
    assert (Hcalm1 : calm tix s P (S fuel) (ps_read tix sk)).
    { destruct Hcalm as [H|H]; [left; auto|right]. cbn [errors] in *. rewrite error_read, step_read. exact H. }
    assert (G : forall sk1 st1 m1, parse_step tix skp sk1 = parse_step tix skp sk -> calm tix s P (S fuel) sk1 -> msim sk1 st1 m1 g ts pos vals -> after st1 m1 ts pos vals ->
      match mix_turn tix P m1 st1 with inl ms' => follows w fuel ms' | inr _ => True end).
    { intros sk1 st1 m1 Esk Hc1 Hs1 Ha1. cbn [loop] in Hl. rewrite <- Esk in Hl.
      destruct (mturn fuel sk1 st1 m1 g ts pos vals Hc1 Hs1 Ha1) as [(sk' & st' & m' & g' & ts' & pos' & vals' & H1 & H2 & H3 & H4 & H5)|
        [(sk' & g' & ts' & pos' & r & m' & la & ys & H1 & H2 & H3 & H4 & H5 & [(x & _ & ->)|(_ & ->)])|[(t & u' & v & la & ys & H1 & H2 & H3 & H4 & ->)|(r & r' & H1 & H2 & -> & H4)]]]; auto.
      rewrite H1 in Hl. rewrite H2. eapply IH; eauto. eapply calm_step; eauto. }
    destruct Hba as [Hb|Ha].
    - pose proof Hb as [Hbuf [la Hfull]]. cbn [follows fst snd]. rewrite Hbuf. destruct (next m) as [[y| |] m1] eqn:En; cbn [fst].
      + assert (Hy : y = nth_error w (length (ps_syms st))).
        { destruct (finish (S fuel) sk g ts pos u it Hcalm (ms_inv _ _ _ _ _ _ _ Hsim) (ms_span _ _ _ _ _ _ _ Hsim) Hl) as (t & Ht & He).
          specialize (Hag t Ht). rewrite evaluate_full in Hag. cbn [snd] in Hag. unfold ext in He. rewrite Hfull in He. cbn [advance] in He. rewrite En in He. cbn [gbind fst snd] in He. destruct He as [l He]. rewrite He in Hag.
          apply Hag. rewrite <- app_assoc, nth_error_app2 by (rewrite map_length; lia). rewrite map_length, Nat.sub_diag. reflexivity. }
        destruct (read_msim _ _ _ _ _ _ _ _ _ Hsim Hb En Hy) as (R1 & R2 & R3 & R4). pose proof (G _ _ m1 (step_read tix skp sk) Hcalm1 R1 R2) as HG. rewrite <- R3 in HG.
        destruct y as [x|]; auto.
      + cbn [mix_step]. rewrite Hbuf, En. exact I.
      + cbn [mix_step]. rewrite Hbuf, En. exact I.
    - assert (Hne : exists b, ps_buf st = [b]) by apply Ha. destruct Hne as [b Hb].
      assert (Est : mix_step tix next P (m, st) = mix_turn tix P m st) by (cbn [mix_step]; rewrite Hb; reflexivity).
      cbn [follows fst snd]. rewrite Hb, Est. exact (G sk st m eq_refl Hcalm Hsim Ha).
  Qed.

  (** the run is not longer than the one without effects *)
  Lemma m_ends fuel : forall sk st m g ts pos vals, calm tix s P fuel sk -> msim sk st m g ts pos vals -> before st m ts vals \/ after st m ts pos vals ->
    follows w fuel (m, st) \/ ps_buf st = [(TEoi, 0)] -> loop (parse_step tix skp) fuel sk <> OutOfFuel -> exists r m', loop (mix_step tix next P) fuel (m, st) = Ok (r, m').
  Proof.
    induction fuel as [|fuel IH]; intros sk st m g ts pos vals Hcalm Hsim Hba Hfo Hl; [exfalso; apply Hl; reflexivity|].
    assert (Hcalm1 : calm tix s P (S fuel) (ps_read tix sk)).
    { destruct Hcalm as [H|H]; [left; auto|right]. cbn [errors] in *. rewrite error_read, step_read. exact H. }
    assert (G : forall sk1 st1 m1, parse_step tix skp sk1 = parse_step tix skp sk -> calm tix s P (S fuel) sk1 -> msim sk1 st1 m1 g ts pos vals -> after st1 m1 ts pos vals ->
      (match mix_turn tix P m1 st1 with inl ms' => follows w fuel ms' | inr _ => True end \/ ps_buf st1 = [(TEoi, 0)]) ->
      mix_step tix next P (m, st) = mix_turn tix P m1 st1 -> exists r m', loop (mix_step tix next P) (S fuel) (m, st) = Ok (r, m')).
    { intros sk1 st1 m1 Esk Hc1 Hs1 Ha1 Hf1 Est. cbn [loop] in *. rewrite Est. rewrite <- Esk in Hl.
      destruct (mturn fuel sk1 st1 m1 g ts pos vals Hc1 Hs1 Ha1) as [(sk' & st' & m' & g' & ts' & pos' & vals' & H1 & H2 & H3 & H4 & H5)|
        [(sk' & g' & ts' & pos' & r & m' & la & ys & H1 & H2 & H3 & H4 & H5 & [(x & _ & ->)|(_ & ->)])|[(t & u' & v & la & ys & H1 & H2 & H3 & H4 & ->)|(r & r' & H1 & H2 & H3 & H4)]]]; eauto.
      - rewrite H1 in Hl. rewrite H2 in *. eapply (IH sk'); eauto; [eapply calm_step; eauto|]. destruct Hf1 as [Hf1|Hf1]; auto.
      - rewrite H3. unfold mix_turn, eff_step in H3. pose proof (step_fuel tix (parser_at P m1) st1) as Z. destruct (parse_step tix (parser_at P m1) st1) as [st'|[[o it]| |]]; try discriminate; try congruence; injection H3 as <-; eauto. }
    destruct Hba as [Hb|Ha].
    - pose proof Hb as [Hbuf [la Hfull]]. destruct Hfo as [Hfo|Hfo]; [|congruence]. cbn [follows fst snd] in Hfo. rewrite Hbuf in Hfo.
      destruct (next m) as [[y| |] m1] eqn:En; cbn [fst] in Hfo.
      + assert (Hy : y = nth_error w (length (ps_syms st))) by (destruct y; [destruct Hfo; auto|auto]).
        destruct (read_msim _ _ _ _ _ _ _ _ _ Hsim Hb En Hy) as (R1 & R2 & R3 & R4).
        refine (G _ _ m1 (step_read tix skp sk) Hcalm1 R1 R2 _ R3). destruct y as [x|]; [left|right; auto]. destruct Hfo as [_ Hfo]. rewrite R3 in Hfo. exact Hfo.
      + cbn [loop mix_step]. rewrite Hbuf, En. eauto.
      + exfalso. apply (Hret m). rewrite En. reflexivity.
    - assert (Hne : exists b, ps_buf st = [b]) by apply Ha. destruct Hne as [b Hb].
      assert (Est : mix_step tix next P (m, st) = mix_turn tix P m st) by (cbn [mix_step]; rewrite Hb; reflexivity).
      refine (G sk st m eq_refl Hcalm Hsim Ha _ Est). destruct Hfo as [Hfo|Hfo]; [left|right; auto]. cbn [follows fst snd] in Hfo. rewrite Hb, Est in Hfo. exact Hfo.
  Qed.

  Lemma msim_init : msim (ps_init skp w) (ps_init (parser_at P m0) []) m0 [] [] 0 [] /\ before (ps_init (parser_at P m0) []) m0 [] [].
  Proof.
    split.
    - constructor; auto.
      + apply (at_init tix (skel s) skp ss w).
      + split; reflexivity.
      + constructor; try constructor; auto. cbn [with_iter ps_init ps_iter]. induction w; constructor; auto.
      + exists []. split; [reflexivity|constructor].
      + constructor.
    - split; [reflexivity|]. exists None. unfold full. simpl. destruct (next m0) as [[y| |] m1]; reflexivity.
  Qed.
End Mix.

Section Few.
  Context {M N T E : Type} (tix : T -> nat) (next : M -> res (option T) * M) (P : eparser M N T E).
  (** with a bound on the number of tokens *)
  Variable mu : M -> nat.
  Hypothesis Hmu : forall m x m', next m = (Ok (Some x), m') -> mu m' < mu m.
  Hypothesis Hgmu : forall g m args, In g (ep_gens P) -> mu (snd (g m args)) <= mu m.
  Lemma turn_mu m st ms' : mix_turn tix P m st = inl ms' -> mu (fst ms') <= mu m.
  Proof.
    unfold mix_turn, eff_step. intros H. destruct (parse_step tix (parser_at P m) st) as [st'|r]; [|destruct r as [[o it]| |]; discriminate]. injection H as <-. cbn [fst].
    destruct (step_call tix (parser_at P m) st) as [[k args]|]; [|lia]. unfold ecall. destruct (nth_error (ep_gens P) k) as [g|] eqn:Eg; [|simpl; lia]. apply Hgmu. eapply nth_error_In; eauto.
  Qed.
  Lemma few_tokens fuel : forall m st, exists u, follows tix next P (ps_syms st ++ u) fuel (m, st) /\ length u <= mu m.
  Proof.
    induction fuel as [|fuel IH]; intros m st; [exists []; simpl; split; [exact I|lia]|]. cbn [follows fst snd]. destruct (ps_buf st) as [|b buf] eqn:Eb.
    - cbn [mix_step]. rewrite Eb. pose proof (Hmu m) as Hm1. destruct (next m) as [[[x|]| |] m1]; cbn [fst].
      + specialize (Hm1 x m1 eq_refl). destruct (mix_turn tix P m1 (fill tix st x)) as [[m2 st2]|r] eqn:Et.
        * destruct (IH m2 st2) as (u & Hu & Hlu). pose proof (turn_mu _ _ _ Et) as Hm2. cbn [fst] in Hm2. apply turn_syms in Et; [|discriminate]. cbn [snd fill ps_syms] in Et. rewrite Et, <- app_assoc in Hu. exists (x :: u). split; [|simpl; lia]. split; [|exact Hu].
          rewrite nth_error_app2, Nat.sub_diag by lia. reflexivity.
        * exists [x]. split; [|simpl; lia]. split; auto. rewrite nth_error_app2, Nat.sub_diag by lia. reflexivity.
      + exists []. split; [|simpl; lia]. apply nth_error_None. rewrite app_nil_r. lia.
      + exists []. split; [exact I|simpl; lia].
      + exists []. split; [exact I|simpl; lia].
    - cbn [mix_step]. rewrite Eb. destruct (mix_turn tix P m st) as [[m2 st2]|r] eqn:Et; [|exists []; split; [exact I|simpl; lia]].
      destruct (IH m2 st2) as (u & Hu & Hlu). pose proof (turn_mu _ _ _ Et) as Hm2. cbn [fst] in Hm2. apply turn_syms in Et; [|congruence]. cbn [snd] in Et. rewrite Et in Hu. exists u. split; [exact Hu|lia].
  Qed.
End Few.

(** ** The theorems on one run *)
Section Aug.
  Context {M N T E : Type} (tix : T -> nat) (next : M -> res (option T) * M).
  Variables (rules : list rule) (gs extra : list (ereducer M N T E)) (input : list T).
  Hypothesis Hlen : length gs = length rules.
  Lemma ave_aug : (forall X t, twf tix rules input X t -> forall c, ave next (gs ++ extra) t c = ave next gs t c) /\
    (forall l ts, twfs tix rules input l ts -> forall c, emap (ave next (gs ++ extra)) ts c = emap (ave next gs) ts c).
  Proof.
    apply (twf_twfs_ind T tix rules input); auto.
    - intros k r ts Hr _ IH c. cbn [ave]. rewrite IH. destruct (emap (ave next gs) ts c) as [[args| |] [[m la] ys]]; auto.
      unfold ecall. rewrite nth_error_app1; auto. apply nth_error_Some_lt in Hr. lia.
    - intros X l t ts _ IH1 _ IH2 c. cbn [emap]. rewrite IH1. destruct (ave next gs t c) as [[a| |] c1]; auto. rewrite IH2. reflexivity.
  Qed.
  Lemma evaluate_aug X t m : twf tix rules input X t -> evaluate_ahead next (gs ++ extra) t m = evaluate_ahead next gs t m.
  Proof. intros H. unfold evaluate_ahead. destruct (advance next (m, None, [])) as [[u|e|] c]; auto. rewrite (proj1 ave_aug _ _ H). reflexivity. Qed.
End Aug.

(** how many answers a successful evaluation takes *)
Section Count.
  Context {M N T E : Type} (next : M -> res (option T) * M) (gs : list (ereducer M N T E)).
  Lemma ave_count t : forall c a c', ave next gs t c = (GOk a, c') -> length (snd c') = length (snd c) + length (leaves t).
  Proof.
    induction t as [i|lo hi|k ts IH] using tree_ind'; intros c a c' H; cbn [ave] in H.
    - destruct c as [[m [x|]] ys]; [|discriminate]. cbn [advance] in H. destruct (next m) as [[y| |] m']; simpl in H; try discriminate. injection H as _ <-. simpl. rewrite app_length. auto.
    - discriminate.
    - assert (G : forall c l c', emap (ave next gs) ts c = (GOk l, c') -> length (snd c') = length (snd c) + length (flat_map leaves ts)).
      { clear H. induction IH as [|t ts Ht _ IH]; intros c1 l c2 H; cbn [emap] in H; [injection H as <- <-; simpl; lia|]. destruct (ave next gs t c1) as [[b| |] c3] eqn:E1; try discriminate.
        destruct (emap (ave next gs) ts c3) as [[bs| |] c4] eqn:E2; cbn [gbind] in H; try discriminate. injection H as _ <-. apply Ht in E1. apply IH in E2. simpl. rewrite app_length. lia. }
      destruct (emap (ave next gs) ts c) as [[args| |] [[m la] ys]] eqn:E1; try discriminate. apply G in E1. destruct (ecall gs k m args) as [[v| |] m']; simpl in H; try discriminate. injection H as _ <-. exact E1.
  Qed.
  Lemma evaluate_count t m a m' ys : evaluate_ahead next gs t m = (GOk a, m', ys) -> length ys = S (length (leaves t)).
  Proof.
    unfold evaluate_ahead. cbn [advance]. destruct (next m) as [[y| |] m1]; try discriminate. destruct (ave next gs t _) as [r [[m2 la] ys2]] eqn:E1. intros H. injection H as -> -> ->.
    apply ave_count in E1. simpl in E1. auto.
  Qed.
End Count.
Lemma answers_all {T} (w : list T) : forall ys, answers ys w -> length ys = S (length w) -> ys = map Some w ++ [None].
Proof.
  induction w as [|x w IH]; intros ys H Hl.
  - destruct ys as [|y [|z ys]]; try discriminate. rewrite (H 0 y eq_refl). reflexivity.
  - destruct ys as [|y ys]; [discriminate|]. simpl. f_equal; [apply (H 0 y); reflexivity|]. apply IH; [|simpl in Hl; lia]. intros i z Hi. apply (H (S i) z). exact Hi.
Qed.

(** an iterator that panics instead of not returning *)
Section Return.
  Context {M N T E : Type} (tix : T -> nat) (next : M -> res (option T) * M).
  Definition next_back (m : M) : res (option T) * M := match next m with (OutOfFuel, m') => (Panic, m') | x => x end.
  Lemma back_returns m : fst (next_back m) <> OutOfFuel.
  Proof. unfold next_back. destruct (next m) as [[y| |] m']; simpl; discriminate. Qed.
  Lemma back_ave (gs : list (ereducer M N T E)) t m : evaluate_ahead next_back gs t m = evaluate_ahead next gs t m.
  Proof.
    assert (G : forall c, advance (E := E) next_back c = advance next c).
    { intros [[m1 la] ys]. unfold advance, next_back. destruct (next m1) as [[y| |] m']; reflexivity. }
    assert (G2 : forall t c, ave next_back gs t c = ave next gs t c).
    { induction t0 as [i|lo hi|k ts IH] using tree_ind'; intros c; cbn [ave]; auto.
      - destruct c as [[m1 [x|]] ys]; auto. rewrite G. auto.
      - assert (G3 : forall c, emap (ave next_back gs) ts c = emap (ave next gs) ts c).
        { induction IH as [|t1 ts Ht _ IH]; intros c1; cbn [emap]; auto. rewrite Ht. destruct (ave next gs t1 c1) as [[b| |] c3]; auto. rewrite IH. auto. }
        rewrite G3. auto. }
    unfold evaluate_ahead. rewrite G. destruct (advance next (m, None, [])) as [[u|e|] c]; auto. rewrite G2. auto.
  Qed.
  Lemma back_loop (P : eparser M N T E) fuel : forall ms o m', loop (mix_step tix next P) fuel ms = Ok (Ok o, m') -> loop (mix_step tix next_back P) fuel ms = Ok (Ok o, m').
  Proof.
    induction fuel as [|fuel IH]; intros [m st] o m' H; [discriminate|]. cbn [loop] in *.
    assert (G : mix_step tix next_back P (m, st) = mix_step tix next P (m, st) \/ mix_step tix next P (m, st) = inr OutOfFuel).
    { cbn [mix_step]. destruct (ps_buf st); auto. unfold next_back. destruct (next m) as [[y| |] m1]; auto. }
    destruct G as [-> | G]; [|rewrite G in H; discriminate]. destruct (mix_step tix next P (m, st)); auto.
  Qed.
End Return.

Section MixTop.
  Context {M N T E : Type} (nix : N -> nat) (tix : T -> nat) (next : M -> res (option T) * M).
  Variables (e : lr_env) (s : esyntax M N T E) (P : eparser M N T E) (ws : list warning) (m0 : M).
  Hypothesis Ha : api_syntax nix tix (syntax_at s m0).
  Hypothesis Hmk : eff_makes e s P ws.

  Lemma whole_ahead nx ss w t : made (skel s) (skel_parser s P) ws ss -> whole tix s ss w t ->
    proper_tree tix (syntax_at s m0) w t /\ evaluate_ahead nx (ep_gens P) t m0 = evaluate_ahead nx (egens s) t m0.
  Proof.
    intros Hm Hw. split; [eapply whole_proper; eauto|]. destruct Hw as (H1 & _). apply (twf_aug tix _ _ _ w (md_fresh _ _ _ _ Hm)) in H1. rewrite gram_skel in H1.
    rewrite (proj2 (skel_makes _ _ _ _ Hmk)). eapply evaluate_aug; [|exact H1]. unfold egens. rewrite !map_length. reflexivity.
  Qed.

  Lemma mix_sound v m' : error_free (syntax_at s m0) -> mix_returns tix next P m0 (ROk v) m' ->
    exists w t, proper_tree tix (syntax_at s m0) w t /\ evaluate_ahead next (egens s) t m0 = (GOk (NonTerminal v), m', map Some w ++ [None]).
  Proof.
    intros Hef [fuel Hp]. destruct (skel_made nix tix e s P ws m0 Ha Hmk) as [ss Hm]. unfold mix_parse, mix_init in Hp. apply back_loop in Hp.
    destruct (some_tokens tix (next_back next) P fuel m0 (ps_init (parser_at P m0) [])) as [w Hf]. cbn [ps_init ps_syms app] in Hf.
    assert (Hc : calm tix s P fuel (ps_init (skel_parser s P) w)) by (left; unfold error_free in *; rewrite gram_skel; rewrite gram_at in Hef; auto).
    destruct (msim_init tix (next_back next) s P ss m0 w) as [Hs Hb].
    pose proof (mtrack tix (next_back next) s P ws ss m0 Hm (back_returns next) w fuel _ _ _ _ _ _ _ Hc Hs (or_introl Hb) (or_introl Hf)) as H.
    destruct (loop (parse_step tix (skel_parser s P)) fuel (ps_init (skel_parser s P) w)) as [[[u| |u] it']| |]; try (exfalso; eapply H; eauto; fail).
    destruct H as (t & Ht & Hans & Hr). destruct (whole_ahead (next_back next) ss w t Hm Ht) as [Ht1 Ht2]. exists w, t. split; auto. rewrite Ht2, back_ave in Hr, Hans. rewrite Hp in Hr.
    destruct (evaluate_ahead next (egens s) t m0) as [[[[v'|y|y]|x|] m1] ys] eqn:Ev; cbn [fst snd] in *; try contradiction; try discriminate.
    injection Hr as <- <-. f_equal. apply answers_all; auto. rewrite (evaluate_count _ _ _ _ _ _ _ Ev). destruct Ht as (_ & -> & _). rewrite seq_length. auto.
  Qed.

  Lemma mix_complete w t : ws = [] -> ~ cyclic (map er_rule (es_rules s)) (es_start s) -> (forall m, fst (next m) <> OutOfFuel) -> proper_tree tix (syntax_at s m0) w t ->
    forall r m' ys, evaluate_ahead next (egens s) t m0 = (r, m', ys) -> answers ys w -> mix_yields tix next P m0 r m'.
  Proof.
    intros Hw Hnc Hret Ht r m' ys Hev Hans. destruct (skel_made nix tix e s P ws m0 Ha Hmk) as [ss Hm].
    assert (Ht0 : proper_tree tix (skel s) w t).
    { destruct Ht as [[A B] C]. rewrite gram_at in A. split; [split; auto; rewrite gram_skel; exact A|auto]. }
    assert (Hnc0 : ~ cyclic (gram (skel s)) (sx_start (skel s))) by (rewrite gram_skel; auto).
    destruct (skel_accepts tix s P ws w ss t Hm Hw Hnc0 Ht0) as (fuel & u & it & H1 & H3).
    destruct (msim_init tix next s P ss m0 w) as [Hs Hb].
    assert (Huniq : forall t', whole tix s ss w t' -> t' = t).
    { intros t' Ht'. destruct (whole_ahead next ss w t' Hm Ht') as [Ht1 _]. apply (unique_tree tix (skel s) (skel_parser s P) ws ss w Hm); auto.
      destruct Ht1 as [[A B] C]. rewrite gram_at in A. split; [split; auto; rewrite gram_skel; exact A|auto]. }
    assert (Hag : forall t', whole tix s ss w t' -> answers (snd (evaluate_ahead next (ep_gens P) t' m0)) w).
    { intros t' Ht'. destruct (whole_ahead next ss w t' Hm Ht') as [_ ->]. rewrite (Huniq t' Ht'), Hev. exact Hans. }
    pose proof (agrees_follows tix next s P ws ss m0 Hm w fuel _ _ _ _ _ _ _ _ _ (or_intror H3) Hs (or_introl Hb) Hag H1) as Hf.
    pose proof (mtrack tix next s P ws ss m0 Hm Hret w fuel _ _ _ _ _ _ _ (or_intror H3) Hs (or_introl Hb) (or_introl Hf)) as H. rewrite H1 in H. destruct H as (t' & Ht' & _ & Hr').
    destruct (whole_ahead next ss w t' Hm Ht') as [_ Ht2]. rewrite Ht2, (Huniq t' Ht'), Hev in Hr'. cbn [fst snd] in Hr'. unfold mix_yields, mix_returns, mix_panics, mix_parse, mix_init.
    destruct r as [[v|y|y]|x|]; try contradiction; eauto.
  Qed.
End MixTop.

(** ** The models of effects and of iterators alone are special cases *)
Section Special.
  Context {M N T E : Type} (tix : T -> nat).
  (** reducers that do not touch what else there is *)
  Definition beside_gen {Z} (g : ereducer M N T E) : ereducer (M * Z) N T E := fun mz args => (fst (g (fst mz) args), (snd (g (fst mz) args), snd mz)).
  Definition beside_parser {Z} (P : eparser M N T E) : eparser (M * Z) N T E := mk_ep (ep_tab P) (map beside_gen (ep_gens P)).
  (** the iterator of a list that is part of the state *)
  Definition list_next (mz : M * list T) : res (option T) * (M * list T) :=
    match snd mz with [] => (Ok None, mz) | x :: z => (Ok (Some x), (fst mz, z)) end.
  Lemma beside_at {Z} (P : eparser M N T E) (m : M) (z : Z) : parser_at (beside_parser P) (m, z) = parser_at P m.
  Proof. unfold parser_at, beside_parser. cbn [ep_tab ep_gens]. rewrite map_map. reflexivity. Qed.
  Lemma beside_call {Z} (P : eparser M N T E) k m (z : Z) args : snd (ecall (ep_gens (beside_parser P)) k (m, z) args) = (snd (ecall (ep_gens P) k m args), z).
  Proof. unfold ecall, beside_parser. cbn [ep_gens]. rewrite nth_error_map. destruct (nth_error (ep_gens P) k); reflexivity. Qed.
  Definition same_as_list (x : res (res (outcome N E) * (M * list T))) (y : res (res (outcome N E * list T) * M)) : Prop :=
    match y with
    | Ok (Ok (o, it), m') => x = Ok (Ok o, (m', it))
    | Ok (_, m') => exists it, x = Ok (Panic, (m', it))
    | _ => x = OutOfFuel
    end.
  Lemma mix_eff (P : eparser M N T E) fuel : forall m st z, ps_iter st = [] ->
    same_as_list (loop (mix_step tix list_next (beside_parser P)) fuel ((m, z), st)) (loop (eff_step tix P) fuel (m, with_iter st z)).
  Proof.
    induction fuel as [|fuel IH]; intros m st z Hi; [reflexivity|]. cbn [loop].
    (* a turn on a state that has been read *)
    assert (G : forall st1 z1, ps_iter st1 = [] -> ps_buf st1 <> [] -> parse_step tix (parser_at P m) (with_iter st z) = parse_step tix (parser_at P m) (with_iter st1 z1) ->
      step_call tix (parser_at P m) (with_iter st z) = step_call tix (parser_at P m) (with_iter st1 z1) ->
      same_as_list (match mix_turn tix (beside_parser P) (m, z1) st1 with inl s' => loop (mix_step tix list_next (beside_parser P)) fuel s' | inr r => r end)
        (match eff_step tix P (m, with_iter st z) with inl s' => loop (eff_step tix P) fuel s' | inr r => r end)).
    { intros st1 z1 Hi1 Hb1 E1 E2. unfold mix_turn, eff_step. fold (eff_step tix P) (eff_step tix (@beside_parser (list T) P)). rewrite E1, E2, beside_at, step_with, call_with by auto.
      pose proof (step_iter_nil tix (parser_at P m) st1 Hi1) as Hn. pose proof (step_fuel tix (parser_at P m) st1) as Z.
      destruct (parse_step tix (parser_at P m) st1) as [st'|[[o it]| |]]; cbn [retold].
      - destruct (step_call tix (parser_at P m) st1) as [[k args]|]; [rewrite beside_call|]; apply IH; auto.
      - destruct (step_call tix (parser_at P m) st1) as [[k args]|]; [rewrite beside_call|]; reflexivity.
      - destruct (step_call tix (parser_at P m) st1) as [[k args]|]; [rewrite beside_call|]; exists z1; reflexivity.
      - congruence. }
    cbn [mix_step]. destruct (ps_buf st) as [|b buf] eqn:Eb.
    - unfold list_next at 1. cbn [fst snd]. destruct z as [|x z].
      + apply G; [reflexivity|discriminate| |].
        * rewrite step_fill_end by auto. rewrite (with_nil (fill_end st)) by reflexivity. reflexivity.
        * unfold step_call. assert (ps_read tix (with_iter st []) = with_iter (fill_end st) []) as -> by (unfold ps_read; simpl; rewrite Eb; reflexivity). reflexivity.
      + apply G; [reflexivity|discriminate| |].
        * rewrite step_fill by auto. rewrite (step_with tix _ (fill tix st x)) by discriminate. reflexivity.
        * unfold step_call. assert (ps_read tix (with_iter st (x :: z)) = with_iter (fill tix st x) z) as -> by (unfold ps_read; simpl; rewrite Eb; reflexivity). reflexivity.
    - apply G; auto. congruence.
  Qed.
End Special.
Section Special2.
  Context {S N T E : Type} (tix : T -> nat) (pull : S -> res (option T * S)).
  (** an iterator with a state of its own *)
  Definition pull_next (src : S) : res (option T) * S := match pull src with Ok (y, src') => (Ok y, src') | Panic => (Panic, src) | OutOfFuel => (OutOfFuel, src) end.
  Definition same_as_pull (x : res (res (outcome N E) * S)) (y : res (outcome N E * S)) : Prop :=
    match y with
    | Ok (o, src) => x = Ok (Ok o, src)
    | Panic => exists src, x = Ok (Panic, src)
    | OutOfFuel => x = OutOfFuel
    end.
  Lemma lift_at (P : parser N T E) (m : S) : parser_at (lift_parser P) m = P.
  Proof.
    unfold parser_at, lift_parser. cbn [ep_tab ep_gens]. rewrite map_map. destruct P as [p gs]. cbn [pr_tab pr_gens]. f_equal. clear. induction gs as [|g gs IH]; simpl; f_equal; auto.
  Qed.
  Lemma mix_pull (P : parser N T E) fuel : forall src st, same_as_pull (loop (mix_step tix pull_next (lift_parser P)) fuel (src, st)) (loop (pull_step tix pull P) fuel (src, st)).
  Proof.
    induction fuel as [|fuel IH]; intros src st; [reflexivity|]. cbn [loop].
    assert (G : forall src1 st1, same_as_pull (match mix_turn tix (lift_parser P) src1 st1 with inl s' => loop (mix_step tix pull_next (lift_parser P)) fuel s' | inr r => r end)
      (match beside src1 (parse_step tix P st1) with inl s' => loop (pull_step tix pull P) fuel s' | inr r => r end)).
    { intros src1 st1. unfold mix_turn, eff_step. rewrite lift_at.
      assert (Em : match step_call tix P st1 with Some (k, args) => snd (ecall (ep_gens (lift_parser P)) k src1 args) | None => src1 end = src1).
      { destruct (step_call tix P st1) as [[k args]|]; auto. unfold ecall, lift_parser. cbn [ep_gens]. rewrite nth_error_map. destruct (nth_error (pr_gens P) k); reflexivity. }
      rewrite Em. pose proof (step_fuel tix P st1) as Z. destruct (parse_step tix P st1) as [st'|[[o it]| |]]; cbn [beside]; simpl; eauto; congruence. }
    cbn [mix_step pull_step]. destruct (ps_buf st); auto. unfold pull_next. destruct (pull src) as [[[x|] src']| |]; auto; simpl; eauto.
  Qed.
End Special2.
