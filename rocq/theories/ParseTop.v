(** * From syntaxes to runs: the lemmas behind the property theorems about [parse] *)
From Coq Require Import List Arith Lia Bool Sorted.
From Verif Require Import Lib Grammar LrModel LrSpec LrSets LrStates LrNew LrTop LrMono ParseModel Trees ParseSpec ParseInv ParseComplete GramFacts ParseTerm.
Import ListNotations.

Section Api.
  Context {N T E : Type} (nix : N -> nat) (tix : T -> nat).

  Lemma rb_no_eoi b : rb_made nix tix b -> ~ In (TM TEoi) (rb_syms b).
  Proof.
    induction 1; simpl; auto; rewrite in_app_iff; simpl; intros [H1|[H1|[]]]; auto; discriminate.
  Qed.
  Lemma api_rule_eoi (r : crule N T E) : api_rule nix tix r -> ~ In (TM TEoi) (r_rhs (cr_rule r)).
  Proof.
    intros [a l g|a l g|b g Hb]; simpl.
    - rewrite in_map_iff. intros (x & Hx & _). destruct x; discriminate.
    - rewrite in_map_iff. intros (x & Hx & _). destruct x; discriminate.
    - apply rb_no_eoi. auto.
  Qed.
  Lemma api_no_eoi (s : syntax N T E) : api_syntax nix tix s -> no_eoi (gram s).
  Proof.
    intros H r Hr. apply in_map_iff in Hr as (c & <- & Hc). apply api_rule_eoi. unfold api_syntax in H. rewrite Forall_forall in H. auto.
  Qed.

  (** what a parser that was made is like *)
  Record made (s : syntax N T E) (P : parser N T E) (ws : list warning) (ss : nat) : Prop := {
    md_ss : start_symbol (gram s) = Ok ss;
    md_fresh : ~ In ss (nonterminals (gram s));
    md_eoi : no_eoi (gram s);
    md_can : canonical (augment (gram s) (sx_start s) ss) (length (gram s)) (pr_tab P);
    md_gens : pr_gens P = gens s ++ [fun _ => GPanic];
    md_len : length (pr_gens P) = length (augment (gram s) (sx_start s) ss);
    md_warn : forall x, In x ws <-> conflict (augment (gram s) (sx_start s) ss) (length (gram s)) x;
    md_free : ws = [] <-> conflict_free (augment (gram s) (sx_start s) ss) (length (gram s));
    md_each : exists c, ws = map fst c /\ NoDup c /\ forall x t, In (x, t) c <-> conflict_at (augment (gram s) (sx_start s) ss) (length (gram s)) x t }.

  Lemma no_eoi_made e (s : syntax N T E) P ws : no_eoi (gram s) -> makes e s P ws -> exists ss, made s P ws ss.
  Proof.
    intros Heoi [He [fuel Hf]].
    destruct (lr_new_ok e (gram s) (sx_start s) He Heoi) as (ss & Ess & Hss & F & r & HF & Hr). exists ss.
    unfold lr1_new in Hf. fold (gram s) in Hf.
    assert (Er : lr_new e fuel (gram s) (sx_start s) = r).
    { destruct (lr_new e fuel (gram s) (sx_start s)) as [pw| |] eqn:El; try discriminate.
      assert (G : lr_new e (fuel + F) (gram s) (sx_start s) = Ok pw) by (apply (lr_new_mono e fuel); auto; [congruence|lia]).
      rewrite HF in G by lia. auto. }
    rewrite Er in Hf. destruct r as [[p w]| |]; try discriminate. simpl in Hf. injection Hf as <- <-.
    destruct Hr as (H1 & _ & H2 & H3 & H4). constructor; simpl; auto.
    rewrite app_length, map_length, augment_len. unfold gram. rewrite map_length. simpl. lia.
  Qed.
  Lemma makes_made e (s : syntax N T E) P ws : api_syntax nix tix s -> makes e s P ws -> exists ss, made s P ws ss.
  Proof. intros Ha. apply no_eoi_made, api_no_eoi. auto. Qed.
End Api.

(** ** Trees of the augmented grammar *)
Section AugTrees.
  Context {N T E : Type} (tix : T -> nat).
  Variables (rules : list rule) (start ss : nat) (input : list T).
  Let rs := augment rules start ss.
  Hypothesis Hss : ~ In ss (nonterminals rules).

  Lemma twf_incl : (forall X t, twf tix rules input X t -> twf tix rs input X t) /\
    (forall l ts, twfs tix rules input l ts -> twfs tix rs input l ts).
  Proof.
    apply (twf_twfs_ind T tix rules input); intros; try (constructor; auto; fail).
    constructor; auto. unfold rs, augment. rewrite nth_error_app1; auto. eapply nth_error_Some_lt; eauto.
  Qed.
  Lemma twf_aug0 : (forall X t, twf tix rs input X t -> X <> NT ss -> twf tix rules input X t) /\
    (forall l ts, twfs tix rs input l ts -> ~ In (NT ss) l -> twfs tix rules input l ts).
  Proof.
    apply (twf_twfs_ind T tix rs input); intros; try (constructor; auto; fail).
    - assert (k <> length rules).
      { intros ->. unfold rs in H. rewrite augment_start in H. injection H as <-. simpl in H2. congruence. }
      assert (Hr : nth_error rules k = Some r) by (unfold rs in H; rewrite augment_old in H; auto).
      constructor; auto. apply H1. eapply ss_rhs; eauto. eapply nth_error_In; eauto.
    - simpl in H3. constructor; auto.
  Qed.
  Lemma twf_ss_start : start = ss -> (forall X t, twf tix rs input X t -> X <> NT ss) /\ (forall l ts, twfs tix rs input l ts -> ~ In (NT ss) l).
  Proof.
    intros Es. apply (twf_twfs_ind T tix rs input); auto; try discriminate.
    - intros k r ts Hr _ IH Hq. injection Hq as Hq. apply nth_error_In in Hr. destruct (in_app_or _ _ _ Hr) as [H|[<-|[]]].
      + eapply ss_lhs; eauto.
      + apply IH. simpl. left. congruence.
    - intros X l t ts _ IH1 _ IH2 [H|H]; auto.
  Qed.
  Lemma twf_aug t : twf tix rs input (NT start) t <-> twf tix rules input (NT start) t.
  Proof.
    split; [|apply twf_incl]. intros H. apply twf_aug0; auto. destruct (Nat.eq_dec start ss) as [Es|Es]; [|congruence].
    apply (proj1 (twf_ss_start Es) _ _ H).
  Qed.

  Variables (gs extra : list (reducer N T E)).
  Hypothesis Hlen : length gs = length rules.
  Lemma call_app k args : k < length rules -> call (gs ++ extra) k args = call gs k args.
  Proof. intros H. unfold call. rewrite nth_error_app1 by lia. reflexivity. Qed.
  Lemma evl_aug : (forall X t, twf tix rules input X t -> evl (gs ++ extra) input t = evl gs input t) /\
    (forall l ts, twfs tix rules input l ts -> lmap (evl (gs ++ extra) input) ts = lmap (evl gs input) ts).
  Proof.
    apply (twf_twfs_ind T tix rules input); auto.
    - intros k r ts Hr _ IH. cbn [evl]. rewrite IH. destruct (lmap (evl gs input) ts) as [c [args| |]]; auto.
      rewrite call_app by (eapply nth_error_Some_lt; eauto). reflexivity.
    - intros X l t ts _ IH1 _ IH2. cbn [lmap]. rewrite IH1, IH2. reflexivity.
  Qed.
  Lemma ev_aug X t : twf tix rules input X t -> ev (gs ++ extra) input t = ev gs input t.
  Proof. intros H. rewrite <- !evl_snd. f_equal. eapply evl_aug; eauto. Qed.
  Lemma gmap_aug l ts : twfs tix rules input l ts -> gmap (ev (gs ++ extra) input) ts = gmap (ev gs input) ts.
  Proof. induction 1; cbn [gmap]; auto. rewrite (ev_aug _ _ H), IHtwfs. reflexivity. Qed.
End AugTrees.

(** ** The arguments trees stand for *)
Section Args.
  Context {N T E : Type} (tix : T -> nat) (rules : list rule) (input : list T) (gs : list (reducer N T E)).
  Definition direct (ts : list tree) : list nat := flat_map (fun t => match t with Leaf i => [i] | _ => [] end) ts.

  Lemma direct_sub ts : forall j, In j (direct ts) -> In j (flat_map leaves ts).
  Proof.
    intros j. unfold direct. rewrite !in_flat_map. intros (t & Ht & Hj). exists t. split; auto. destruct t; simpl in *; tauto.
  Qed.
  Lemma direct_sorted ts : StronglySorted Nat.lt (flat_map leaves ts) -> StronglySorted Nat.lt (direct ts).
  Proof.
    induction ts as [|t ts IH]; simpl; intros H; [constructor|].
    pose proof H as H0. apply SSorted_app_inv in H0 as [_ H2]. specialize (IH H2). destruct t; simpl in *; auto.
    inversion H; subst. constructor; auto. rewrite Forall_forall in *. intros j Hj. apply H4. apply direct_sub. auto.
  Qed.
  Lemma args_terminals l ts args : twfs tix rules input l ts -> gmap (ev gs input) ts = GOk args ->
    Forall2 (fun i x => nth_error input i = Some x) (direct ts) (terminals args).
  Proof.
    intros H. revert args. induction H as [|X l t ts Ht Hts IH]; intros args Ha; cbn [gmap] in Ha.
    - injection Ha as <-. constructor.
    - destruct (ev gs input t) as [a| |] eqn:Et; try discriminate. cbn [gbind] in Ha.
      destruct (gmap (ev gs input) ts) as [bs| |]; try discriminate. cbn [gbind] in Ha. injection Ha as <-. specialize (IH _ eq_refl).
      destruct Ht as [i x Hx|lo hi Hl Hh|k r ts' Hr Hts'].
      + simpl in Et. rewrite Hx in Et. injection Et as <-. simpl. constructor; auto.
      + simpl in Et. injection Et as <-. simpl. auto.
      + cbn [ev] in Et. destruct (gmap (ev gs input) ts') as [as'| |]; try discriminate. cbn [gbind] in Et.
        destruct (call gs k as'); try discriminate. injection Et as <-. simpl. auto.
  Qed.
  Lemma args_good l ts args : twfs tix rules input l ts -> StronglySorted Nat.lt (flat_map leaves ts) ->
    gmap (ev gs input) ts = GOk args -> good_args tix input l args.
  Proof.
    intros H Hs Ha. split; [|split].
    - clear Hs. revert args Ha. induction H as [|X l t ts Ht Hts IH]; intros args Ha; cbn [gmap] in Ha; [injection Ha as <-; constructor|].
      destruct (ev gs input t) as [a| |] eqn:Et; try discriminate. cbn [gbind] in Ha.
      destruct (gmap (ev gs input) ts) as [bs| |]; try discriminate. cbn [gbind] in Ha. injection Ha as <-.
      constructor; auto. destruct Ht as [i x Hx|lo hi Hl Hh|k r ts' Hr Hts'].
      + simpl in Et. rewrite Hx in Et. injection Et as <-. reflexivity.
      + cbn [ev] in Et. injection Et as <-. cbn [fits]. intros E0. apply (f_equal (@length T)) in E0. rewrite firstn_length, skipn_length in E0.
        change (length (@nil T)) with 0 in E0. destruct lo; lia.
      + cbn [ev] in Et. destruct (gmap (ev gs input) ts') as [as'| |]; try discriminate. cbn [gbind] in Et.
        destruct (call gs k as'); try discriminate. injection Et as <-. exact I.
    - exists (direct ts). split; [apply direct_sorted; auto|]. eapply args_terminals; eauto.
    - intros sl Hin. clear Hs. revert args Ha Hin. induction H as [|X l t ts Ht Hts IH]; intros args Ha Hin; cbn [gmap] in Ha; [injection Ha as <-; destruct Hin|].
      destruct (ev gs input t) as [a| |] eqn:Et; try discriminate. cbn [gbind] in Ha.
      destruct (gmap (ev gs input) ts) as [bs| |]; try discriminate. cbn [gbind] in Ha. injection Ha as <-.
      destruct Hin as [->|Hin]; [|eapply IH; eauto]. destruct Ht as [i x Hx|lo hi Hl Hh|k r ts' Hr Hts'].
      + simpl in Et. rewrite Hx in Et. discriminate.
      + cbn [ev] in Et. injection Et as <-. exists (firstn lo input), (skipn (S hi - lo) (skipn lo input)).
        rewrite firstn_skipn. rewrite firstn_skipn. auto.
      + cbn [ev] in Et. destruct (gmap (ev gs input) ts') as [as'| |]; try discriminate. cbn [gbind] in Et.
        destruct (call gs k as'); discriminate.
  Qed.
End Args.

(** ** [parse] *)
Section Runs.
  Context {N T E : Type} (tix : T -> nat).

  (** the reducers enter a turn only through the call *)
  Lemma step_call_adequate (p : lr_parser) (gs gs' : list (reducer N T E)) (s : pstate N T) :
    length gs = length gs' ->
    (match step_call tix (mk_lr1 p gs) s with None => True | Some (k, args) => call gs k args = call gs' k args end) ->
    step_call tix (mk_lr1 p gs) s = step_call tix (mk_lr1 p gs') s /\ parse_step tix (mk_lr1 p gs) s = parse_step tix (mk_lr1 p gs') s.
  Proof.
    intros Hl. unfold step_call, parse_step. cbn [pr_tab pr_gens]. cbv zeta. destruct (ps_buf (ps_read tix s)) as [|[t i] buf]; auto.
    destruct (act p (ps_state (ps_read tix s)) t) as [[[q|k|]|]| |]; auto.
    destruct (nth_error (p_rules p) k) as [r|]; auto. destruct (length (ps_stack (ps_read tix s)) <? length (r_rhs r)); auto.
    destruct (reduce_args (ps_syms (ps_read tix s)) 0 (map snd (rev (firstn (length (r_rhs r)) (ps_stack (ps_read tix s)))))) as [args| |]; auto.
    intros Hc. split; auto. unfold call in Hc. destruct (nth_error gs k) as [g|] eqn:Eg; destruct (nth_error gs' k) as [g'|] eqn:Eg'; auto.
    - rewrite Hc. auto.
    - apply nth_error_None in Eg'. apply nth_error_Some_lt in Eg. lia.
    - apply nth_error_None in Eg. apply nth_error_Some_lt in Eg'. lia.
  Qed.

  Variable P : parser N T E.
  Lemma returns_full w o : returns tix P w o <-> exists fuel it, parse_full tix P fuel w = Ok (o, it).
  Proof.
    unfold returns, parse. split.
    - intros [fuel H]. exists fuel. destruct (parse_full tix P fuel w) as [[o' it]| |]; try discriminate. simpl in H. injection H as <-. eauto.
    - intros (fuel & it & H). exists fuel. rewrite H. reflexivity.
  Qed.
  Lemma panics_full w : panics tix P w <-> exists fuel, parse_full tix P fuel w = Panic.
  Proof.
    unfold panics, parse. split; intros [fuel H]; exists fuel; [|rewrite H; auto]. destruct (parse_full tix P fuel w) as [[o' it]| |]; try discriminate; auto.
  Qed.
  Lemma diverges_full w : diverges tix P w <-> forall fuel, parse_full tix P fuel w = OutOfFuel.
  Proof.
    unfold diverges, parse. split; intros H fuel; specialize (H fuel).
    - destruct (parse_full tix P fuel w) as [[o' it]| |]; try discriminate; auto.
    - rewrite H. auto.
  Qed.
  (** at most one of the three, with at most one outcome *)
  Lemma parse_fuel_det w f f' r r' : parse_full tix P f w = r -> parse_full tix P f' w = r' -> r <> OutOfFuel -> r' <> OutOfFuel -> r = r'.
  Proof. intros <- <- H H'. apply loop_det; auto. Qed.
  Lemma returns_det w o o' : returns tix P w o -> returns tix P w o' -> o = o'.
  Proof.
    rewrite !returns_full. intros (f & it & H) (f' & it' & H').
    assert (E0 : Ok (o, it) = Ok (o', it')) by (eapply parse_fuel_det; eauto; discriminate). congruence.
  Qed.
  Lemma returns_no_panic w o : returns tix P w o -> ~ panics tix P w.
  Proof.
    rewrite returns_full, panics_full. intros (f & it & H) (f' & H').
    assert (E0 : Ok (o, it) = Panic) by (eapply parse_fuel_det; eauto; discriminate). congruence.
  Qed.
  Lemma returns_no_div w o : returns tix P w o -> ~ diverges tix P w.
  Proof. intros [f H] Hd. specialize (Hd f). congruence. Qed.
  Lemma ends_returns w o it : ends (parse_step tix P) (ps_init P w) (Ok (o, it)) -> returns tix P w o.
  Proof. intros [m H]. apply returns_full. exists m, it. apply H. auto. Qed.
  Lemma ends_panics w : ends (parse_step tix P) (ps_init P w) Panic -> panics tix P w.
  Proof. intros [m H]. apply panics_full. exists m. apply H. auto. Qed.
End Runs.

Section Top.
  Context {N T E : Type} (nix : N -> nat) (tix : T -> nat).
  Variables (s : syntax N T E) (P : parser N T E) (ws : list warning) (ss : nat) (w : list T).
  Hypothesis Hm : made s P ws ss.
  Let rules := gram s.
  Let start := sx_start s.

  Lemma gens_len : length (gens s) = length rules.
  Proof. unfold gens, rules, gram. rewrite !map_length. auto. Qed.
  Lemma ev_made X t : twf tix rules w X t -> ev (pr_gens P) w t = ev (gens s) w t.
  Proof. intros H. rewrite (md_gens _ _ _ _ Hm). eapply ev_aug; eauto. apply gens_len. Qed.
  Lemma evl_made X t : twf tix rules w X t -> evl (pr_gens P) w t = evl (gens s) w t.
  Proof. intros H. rewrite (md_gens _ _ _ _ Hm). eapply evl_aug; eauto. apply gens_len. Qed.
  Lemma lmap_made l ts : twfs tix rules w l ts -> lmap (evl (pr_gens P) w) ts = lmap (evl (gens s) w) ts.
  Proof. intros H. rewrite (md_gens _ _ _ _ Hm). eapply evl_aug; eauto. apply gens_len. Qed.
  Lemma gmap_made l ts : twfs tix rules w l ts -> gmap (ev (pr_gens P) w) ts = gmap (ev (gens s) w) ts.
  Proof. intros H. rewrite (md_gens _ _ _ _ Hm). eapply gmap_aug; eauto. apply gens_len. Qed.
  Lemma rule_old k r : k <> length rules -> nth_error (augment rules start ss) k = Some r -> nth_error rules k = Some r.
  Proof. intros H. rewrite augment_old; auto. Qed.
  Lemma twfs_old k r ts : nth_error rules k = Some r -> twfs tix (augment rules start ss) w (r_rhs r) ts -> twfs tix rules w (r_rhs r) ts.
  Proof. intros Hr H. eapply twf_aug0; eauto; [apply (md_fresh _ _ _ _ Hm)|]. eapply ss_rhs; [apply (md_fresh _ _ _ _ Hm)|eapply nth_error_In; eauto]. Qed.
  Lemma gens_old k g : k <> length rules -> nth_error (pr_gens P) k = Some g -> nth_error (gens s) k = Some g.
  Proof.
    intros Hk H. rewrite (md_gens _ _ _ _ Hm) in H. destruct (Nat.lt_ge_cases k (length (gens s))) as [Hl|Hl].
    - rewrite nth_error_app1 in H; auto.
    - pose proof (nth_error_Some_lt _ _ _ H) as Hl2. rewrite app_length in Hl2. simpl in Hl2. rewrite gens_len in *. lia.
  Qed.
  Lemma nth_crule k r g : nth_error rules k = Some r -> nth_error (gens s) k = Some g -> nth_error (sx_rules s) k = Some (mk_crule r g).
  Proof.
    unfold rules, gram, gens. rewrite !nth_error_map. destruct (nth_error (sx_rules s) k) as [[r' g']|]; simpl; congruence.
  Qed.

  Notation invat := (inv_at tix rules start ss P w).
  Lemma cases st g ts pos : invat st g ts pos -> exists d, decides (augment rules start ss) (length rules) (pr_tab P) g (la_at tix w pos) d /\ step_case tix rules start ss P w st g ts pos d.
  Proof.
    apply step_cases; [apply (md_fresh _ _ _ _ Hm)|apply (md_eoi _ _ _ _ Hm)|apply (md_can _ _ _ _ Hm)|apply (md_len _ _ _ _ Hm)].
  Qed.
  Lemma at_init : invat (ps_init P w) [] [] 0.
  Proof. constructor; simpl; auto; try constructor; auto. Qed.

  (** every call is one of a rule of the syntax, with good arguments *)
  Definition good_call (c : nat * list (arg N T)) : Prop :=
    exists r, nth_error (sx_rules s) (fst c) = Some r /\ good_args tix w (r_rhs (cr_rule r)) (snd c).
  Lemma calls_good fuel : forall st g ts pos, invat st g ts pos -> Forall good_call (calls tix P fuel st).
  Proof.
    induction fuel as [|fuel IH]; intros st g ts pos Hinv; [constructor|]. cbn [calls].
    destruct (cases _ _ _ _ Hinv) as (d & Hd & Hc). destruct d as [[q|k|]|]; cbn [step_case] in Hc.
    - destruct Hc as (-> & _ & s' & -> & Hi). simpl. eapply IH; eauto.
    - destruct Hd as (_ & _ & Hk & _).
      destruct Hc as [(r & _ & -> & -> & _)|(r & dd & ts1 & ts2 & args & gen & Hr & _ & _ & -> & Ets & _ & Htw & Ha & Hg & Hc)]; [constructor|].
      assert (Hgood : good_call (k, args)).
      { pose proof (rule_old _ _ Hk Hr) as Hr'. pose proof (twfs_old _ _ _ Hr' Htw) as Htw'. exists (mk_crule r gen). simpl. split.
        - apply nth_crule; auto. apply gens_old; auto.
        - eapply args_good; eauto. pose proof (inv_sorted _ _ _ _ _ _ _ _ _ _ Hinv) as Hs. rewrite Ets, flat_map_app in Hs. apply SSorted_app_inv in Hs. apply Hs. }
      constructor; auto. destruct (gen args) as [v|e|].
      + destruct Hc as (s' & -> & Hi). simpl. eapply IH; eauto.
      + destruct Hc as (it & ->). constructor.
      + rewrite Hc. constructor.
    - destruct Hc as (-> & _ & _ & t & v & _ & _ & ->). constructor.
    - destruct Hc as (-> & [(it & -> & _)|(s' & -> & _ & g' & ts' & ts2 & lo & hi & pos' & _ & _ & _ & _ & _ & Hi)]); simpl; [constructor|]. eapply IH; eauto.
  Qed.
End Top.
