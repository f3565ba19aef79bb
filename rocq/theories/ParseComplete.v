(** * Derivable inputs are parsed along their derivation trees *)
From Coq Require Import List Arith Lia Bool Sorted.
From Verif Require Import Lib Grammar LrModel LrSpec LrSets LrStates LrNew LrTop ParseModel Trees ParseSpec ParseInv.
Import ListNotations.

(** ** Runs of a loop *)
Section Runs.
  Context {S R : Type} (step : S -> S + res R).
  Definition reaches (s s' : S) : Prop := exists m, forall fuel, loop step (m + fuel) s = loop step fuel s'.
  Definition ends (s : S) (r : res R) : Prop := exists m, forall fuel, m <= fuel -> loop step fuel s = r.
  Lemma reaches_refl s : reaches s s.
  Proof. exists 0. auto. Qed.
  Lemma reaches_trans s s1 s2 : reaches s s1 -> reaches s1 s2 -> reaches s s2.
  Proof. intros [m H] [m' H']. exists (m + m'). intros fuel. rewrite <- Nat.add_assoc, H, H'. auto. Qed.
  Lemma reaches_step s s' : step s = inl s' -> reaches s s'.
  Proof. intros H. exists 1. intros fuel. simpl. rewrite H. auto. Qed.
  Lemma ends_step s r : step s = inr r -> ends s r.
  Proof. intros H. exists 1. intros fuel Hf. destruct fuel as [|f]; [lia|]. simpl. rewrite H. auto. Qed.
  Lemma reaches_ends s s' r : reaches s s' -> ends s' r -> ends s r.
  Proof.
    intros [m H] [m' H']. exists (m + m'). intros fuel Hf. assert (E : fuel = m + (fuel - m)) by lia. rewrite E, H. apply H'. lia.
  Qed.
  Lemma ends_det s r r' : ends s r -> ends s r' -> r = r'.
  Proof. intros [m H] [m' H']. rewrite <- (H (m + m')) by lia. apply H'. lia. Qed.
  Lemma ends_fuel s r fuel : ends s r -> loop step fuel s = OutOfFuel \/ loop step fuel s = r.
  Proof.
    intros [m H]. destruct (loop step fuel s) eqn:Er; auto; right.
    - rewrite <- (H (m + fuel)) by lia. symmetry. eapply loop_mono; [exact Er|discriminate|lia].
    - rewrite <- (H (m + fuel)) by lia. symmetry. eapply loop_mono; [exact Er|discriminate|lia].
  Qed.
End Runs.

(** ** Runs of [parse] with their reducer calls *)
Section LogRuns.
  Context {N T E : Type} (tix : T -> nat) (P : parser N T E).
  Notation step := (parse_step tix P).
  Definition lreach (s s' : pstate N T) (L : list (nat * list (arg N T))) : Prop :=
    exists m, forall fuel, loop step (m + fuel) s = loop step fuel s' /\ calls tix P (m + fuel) s = L ++ calls tix P fuel s' /\
      errors tix P (m + fuel) s = errors tix P fuel s'.
  Definition lends (s : pstate N T) (r : res (outcome N E * list T)) (L : list (nat * list (arg N T))) : Prop :=
    exists m, forall fuel, m <= fuel -> loop step fuel s = r /\ calls tix P fuel s = L /\ errors tix P fuel s = [].
  Definition call_log (s : pstate N T) : list (nat * list (arg N T)) := match step_call tix P s with Some c => [c] | None => [] end.
  Lemma lreach_refl s : lreach s s [].
  Proof. exists 0. auto. Qed.
  Lemma lreach_trans s s1 s2 L1 L2 : lreach s s1 L1 -> lreach s1 s2 L2 -> lreach s s2 (L1 ++ L2).
  Proof.
    intros [m H] [m' H']. exists (m + m'). intros fuel. rewrite <- Nat.add_assoc. destruct (H (m' + fuel)) as (A & B & A'). destruct (H' fuel) as (C & D & C').
    rewrite A, B, A', C, D, C', app_assoc. auto.
  Qed.
  Lemma lreach_step s s' : step_error tix P s = None -> step s = inl s' -> lreach s s' (call_log s).
  Proof. intros He H. exists 1. intros fuel. simpl. rewrite H, He. auto. Qed.
  Lemma lends_step s r : step_error tix P s = None -> step s = inr r -> lends s r (call_log s).
  Proof. intros He H. exists 1. intros fuel Hf. destruct fuel as [|f]; [lia|]. simpl. rewrite H, He, app_nil_r. auto. Qed.
  Lemma lreach_lends s s' r L1 L2 : lreach s s' L1 -> lends s' r L2 -> lends s r (L1 ++ L2).
  Proof.
    intros [m H] [m' H']. exists (m + m'). intros fuel Hf. assert (E0 : fuel = m + (fuel - m)) by lia. rewrite E0.
    destruct (H (fuel - m)) as (A & B & A'). destruct (H' (fuel - m)) as (C & D & C'); [lia|]. rewrite A, B, A', C, D, C'. auto.
  Qed.
  Lemma lends_ends s r L : lends s r L -> ends step s r.
  Proof. intros [m H]. exists m. intros fuel Hf. apply H. auto. Qed.
End LogRuns.

(** ** Trees without error leaves *)

Section TreeDer.
  Context {T : Type} (tix : T -> nat) (rs : list rule) (input : list T).
  Definition tok (i : nat) : term := match nth_error input i with Some x => TSym (tix x) | None => TEoi end.

  Lemma tree_der : (forall X t, twf tix rs input X t -> clean t = true -> der rs X (map tok (leaves t))) /\
    (forall l ts, twfs tix rs input l ts -> forallb clean ts = true -> ders rs l (map tok (flat_map leaves ts))).
  Proof.
    apply (twf_twfs_ind T tix rs input).
    - intros i x Hx _. simpl. unfold tok. rewrite Hx. constructor.
    - discriminate.
    - intros k r ts Hr Hts IH Hc. simpl in *. apply der_rule; auto. eapply nth_error_In; eauto.
    - intros _. constructor.
    - intros X l t ts _ IH1 _ IH2 Hc. simpl in *. apply andb_true_iff in Hc as [H1 H2]. rewrite map_app. constructor; auto.
  Qed.

  Lemma der_tree : (forall X w, der rs X w -> forall pos n, w = map tok (seq pos n) -> pos + n <= length input ->
       exists t, twf tix rs input X t /\ clean t = true /\ leaves t = seq pos n) /\
    (forall l w, ders rs l w -> forall pos n, w = map tok (seq pos n) -> pos + n <= length input ->
       exists ts, twfs tix rs input l ts /\ forallb clean ts = true /\ flat_map leaves ts = seq pos n).
  Proof.
    apply der_ders_ind.
    - intros t pos n Hw Hn. destruct n as [|n]; [discriminate|]. simpl in Hw. injection Hw as Ht Hw.
      destruct n; [|discriminate]. subst t. unfold tok. destruct (nth_error input pos) as [x|] eqn:Ex.
      + exists (Leaf pos). split; [constructor; auto|]. auto.
      + apply nth_error_None in Ex. lia.
    - intros r w Hr _ IH pos n Hw Hn. destruct (IH pos n Hw Hn) as (ts & H1 & H2 & H3).
      apply In_nth_error in Hr as [k Hk]. exists (Node k ts). split; [constructor; auto|]. auto.
    - intros pos n Hw Hn. destruct n; [|discriminate]. exists []. split; [constructor|]. auto.
    - intros X l u v _ IH1 _ IH2 pos n Hw Hn.
      assert (Hl : length u + length v = n). { rewrite <- app_length, Hw, map_length, seq_length. auto. }
      assert (E0 : n = length u + length v) by auto. rewrite E0 in Hw. rewrite seq_app, map_app in Hw.
      assert (Hu : u = map tok (seq pos (length u)) /\ v = map tok (seq (pos + length u) (length v))).
      { apply app_eq_app in Hw. destruct Hw as (l0 & [[A B]|[A B]]).
        - assert (l0 = []). { apply (f_equal (@length _)) in A. rewrite app_length, map_length, seq_length in A. destruct l0; auto. simpl in A. lia. }
          subst l0. rewrite app_nil_r in A. simpl in B. auto.
        - assert (l0 = []). { apply (f_equal (@length _)) in A. rewrite app_length, map_length, seq_length in A. destruct l0; auto. simpl in A. lia. }
          subst l0. rewrite app_nil_r in A. simpl in B. auto. }
      destruct Hu as [Hu Hv].
      destruct (IH1 _ _ Hu) as (t & A1 & A2 & A3); [lia|]. destruct (IH2 _ _ Hv) as (ts & B1 & B2 & B3); [lia|].
      exists (t :: ts). split; [constructor; auto|]. simpl. rewrite A2, B2, A3, B3. split; auto. rewrite E0, seq_app. reflexivity.
  Qed.

  (** in a grammar without error rules no tree has error leaves *)
  Lemma noerr_clean : (forall r, In r rs -> ~ In (TM TErr) (r_rhs r)) ->
    (forall X t, twf tix rs input X t -> X <> TM TErr -> clean t = true) /\
    (forall l ts, twfs tix rs input l ts -> ~ In (TM TErr) l -> forallb clean ts = true).
  Proof.
    intros Hn. apply (twf_twfs_ind T tix rs input); auto.
    - intros k r ts Hr _ IH _. simpl. apply IH. apply Hn. eapply nth_error_In; eauto.
    - intros X l t ts _ IH1 _ IH2 H. simpl in *. rewrite IH1, IH2; auto.
  Qed.
End TreeDer.

Lemma ders_firsts rs l w la : ders rs l w -> firsts rs (l ++ [TM la]) (match w with [] => la | t :: _ => t end).
Proof.
  intros H. apply (proj2 (der_rewr rs)) in H. destruct w as [|t w].
  - exists []. exact (rewr_ctx rs l [] H [] [TM la]).
  - exists (map TM w ++ [TM la]). exact (rewr_ctx rs l _ H [] [TM la]).
Qed.

(** two parsers for the same grammar decide alike *)
Definition same_decision (d1 d2 : option (action nat)) : Prop :=
  match d1, d2 with
  | Some (Shift _), Some (Shift _) => True
  | Some (Reduce k), Some (Reduce k') => k = k'
  | Some Accept, Some Accept => True
  | None, None => True
  | _, _ => False
  end.
Lemma decides_same rs sr p1 p2 g t d1 d2 : decides rs sr p1 g t d1 -> decides rs sr p2 g t d2 -> same_decision d1 d2.
Proof.
  intros H1 H2. destruct d1 as [[q|k|]|]; destruct d2 as [[q'|k'|]|]; simpl in *; auto; try tauto.
  - destruct H1 as (A1 & A2 & A3 & A4 & A5). destruct H2 as (B1 & B2 & B3 & B4 & B5). specialize (A5 _ B3 B4). specialize (B5 _ A3 A4). lia.
  - destruct H1 as (A1 & A2 & A3 & A4 & A5). destruct H2 as (B1 & B2 & B3). eapply B3; eauto.
  - destruct H1 as (A1 & A2 & A3). destruct H2 as (B1 & B2 & B3 & B4 & B5). eapply A3; eauto.
Qed.
Lemma decides_det rs sr p g t d1 d2 : decides rs sr p g t d1 -> decides rs sr p g t d2 -> d1 = d2.
Proof.
  intros H1 H2. pose proof (decides_same _ _ _ _ _ _ _ _ H1 H2) as H. destruct d1 as [[q|k|]|]; destruct d2 as [[q'|k'|]|]; simpl in *; try tauto; try congruence.
  destruct H1 as [_ H1]. destruct H2 as [_ H2]. congruence.
Qed.

Section Complete.
  Context {N T E : Type} (tix : T -> nat).
  Variables (rules : list rule) (start ss : nat).
  Let rs := augment rules start ss.
  Let sr := length rules.
  Variable P : parser N T E.
  Let p := pr_tab P.
  Variable input : list T.
  Hypothesis Hss : ~ In ss (nonterminals rules).
  Hypothesis Heoi : no_eoi rules.
  Hypothesis Hcan : canonical rs sr p.
  Hypothesis Hgens : length (pr_gens P) = length rs.
  Hypothesis Hcf : conflict_free rs sr.

  Notation invat := (inv_at tix rules start ss P input).
  Notation la := (la_at tix input).
  Notation lvs ts := (flat_map leaves ts).
  Notation run_to := (lreach tix P).
  Notation ends_in := (lends tix P).

  (** a rule that can be reduced at the end of the input while the start rule is complete *)
  Definition early : Prop := exists g k, k <> sr /\ complete rs sr g k TEoi /\ accepting rs sr g.

  Lemma decides_complete g k t d : k <> sr -> complete rs sr g k t -> decides rs sr p g t d ->
    d = Some (Reduce k) \/ (d = Some Accept /\ t = TEoi /\ early).
  Proof.
    intros Hk Hc Hd. destruct (Hcf g k t Hk Hc) as [Hnw Hun]. destruct d as [[q|k'|]|]; simpl in Hd.
    - tauto.
    - left. destruct Hd as (_ & _ & H1 & H2 & _). rewrite (Hun k' H1 H2). auto.
    - right. destruct Hd as (_ & -> & Ha). split; auto. split; auto. exists g, k. auto.
    - exfalso. destruct Hd as (_ & _ & H). eapply H; eauto.
  Qed.
  Lemma decides_wants g t d : wants rs sr g (TM t) -> decides rs sr p g t d -> exists q, d = Some (Shift q).
  Proof. intros Hw Hd. destruct d as [[q|k'|]|]; simpl in Hd; eauto; tauto. Qed.

  Lemma error_spec st g ts pos d : invat st g ts pos -> decides rs sr p g (la pos) d ->
    step_error tix P st = match d with None => Some (la pos, if pos <? length input then pos else 0) | Some _ => None end.
  Proof.
    intros Hinv Hd. unfold step_error.
    destruct (read_inv tix rules start ss P input Hgens st g ts pos Hinv) as [H (t & i & buf & Eb & Hla)]. rewrite Eb.
    assert (Et : t = la pos /\ i = if pos <? length input then pos else 0).
    { unfold la_at. destruct Hla as [(x & Hx & -> & -> & _)|(-> & -> & -> & _)].
      - rewrite Hx. split; auto. rewrite (proj2 (Nat.ltb_lt _ _)); auto. eapply nth_error_Some_lt; eauto.
      - rewrite (proj2 (nth_error_None _ _)), Nat.ltb_irrefl; auto. }
    destruct Et as [-> ->].
    destruct (act_state rules start ss P Hcan g (ps_state (ps_read tix st)) (la pos)) as (d' & Ed & Hd').
    { apply (inv_state _ _ _ _ _ _ _ _ _ _ H). }
    rewrite Ed. rewrite (decides_det _ _ _ _ _ _ _ Hd Hd'). reflexivity.
  Qed.
  Lemma no_error st g ts pos d : invat st g ts pos -> decides rs sr p g (la pos) (Some d) -> step_error tix P st = None.
  Proof. intros H1 H2. rewrite (error_spec _ _ _ _ _ H1 H2). reflexivity. Qed.

  (** [s] goes on to a state for [g], [ts], [pos], or ends the way the evaluation does, or accepts early *)
  Definition fin {A} (s : pstate N T) (g : list sym) (ts : list tree) (pos : nat) (r : list (nat * list (arg N T)) * gres A E) : Prop :=
    match r with
    | (L, GOk _) => exists s', run_to s s' L /\ invat s' g ts pos
    | (L, GErr e) => exists it, ends_in s (Ok (RReducer e, it)) L
    | (L, GPanic) => ends_in s Panic L
    end \/ (early /\ exists v L, ends_in s (Ok (ROk v, [])) L).

  Notation evt := (ev (pr_gens P) input).
  Notation evlt := (evl (pr_gens P) input).
  Lemma lmap_gmap ts : snd (lmap evlt ts) = gmap evt ts.
  Proof. rewrite lmap_snd. induction ts as [|t ts IH]; auto. cbn [gmap]. rewrite evl_snd, IH. auto. Qed.

  Lemma seq_split_eq l1 l2 pos : l1 ++ l2 = seq pos (length (l1 ++ l2)) ->
    l1 = seq pos (length l1) /\ l2 = seq (pos + length l1) (length l2).
  Proof.
    rewrite app_length, seq_app. intros H. apply app_eq_app in H. destruct H as (l0 & [[A B]|[A B]]).
    - assert (l0 = []). { apply (f_equal (@length _)) in A. rewrite app_length, seq_length in A. destruct l0; auto. simpl in A. lia. }
      subst l0. rewrite app_nil_r in A. simpl in B. auto.
    - assert (l0 = []). { apply (f_equal (@length _)) in A. rewrite app_length, seq_length in A. destruct l0; auto. simpl in A. lia. }
      subst l0. rewrite app_nil_r in A. simpl in B. auto.
  Qed.

  Lemma skipn_nth {A} (l : list A) q X l' : skipn q l = X :: l' -> nth_error l q = Some X /\ skipn (S q) l = l'.
  Proof. revert q. induction l as [|Y l IH]; intros [|q] H; simpl in *; try discriminate; [injection H as -> ->; auto|]. apply IH in H. auto. Qed.

  Theorem run_tree :
    (forall X t, twf tix rs input X t -> clean t = true -> forall s g ts pos k q b r,
       invat s g ts pos -> valid rs sr g (mk_item k q b) -> nth_error rs k = Some r -> nth_error (r_rhs r) q = Some X ->
       leaves t = seq pos (length (leaves t)) ->
       firsts rs (skipn (S q) (r_rhs r) ++ [TM b]) (la (pos + length (leaves t))) ->
       fin s (g ++ [X]) (ts ++ [t]) (pos + length (leaves t)) (evlt t)) /\
    (forall l tl, twfs tix rs input l tl -> forallb clean tl = true -> forall s g ts pos k q b r,
       invat s g ts pos -> valid rs sr g (mk_item k q b) -> nth_error rs k = Some r -> skipn q (r_rhs r) = l ->
       lvs tl = seq pos (length (lvs tl)) -> la (pos + length (lvs tl)) = b ->
       fin s (g ++ l) (ts ++ tl) (pos + length (lvs tl)) (lmap evlt tl)).
  Proof.
    apply (twf_twfs_ind T tix rs input).
    - (* a token *)
      intros i x Hx _ s g ts pos k q b r Hinv Hv Hr HX Hl Hf. simpl in *. injection Hl as ->.
      assert (Hla : la pos = TSym (tix x)) by (unfold la_at; rewrite Hx; auto).
      destruct (step_cases tix rules start ss P input Hss Heoi Hcan Hgens s g ts pos Hinv) as (d & Hd & Hc).
      assert (Hw : wants rs sr g (TM (la pos))) by (rewrite Hla; exists k, q, b, r; auto).
      destruct (decides_wants g (la pos) d Hw Hd) as [qq ->].
      destruct Hc as (Hcall & _ & s' & Hs & Hi). unfold fin. cbn [evl ev]. rewrite Hx. left. exists s'.
      split; [pose proof (lreach_step tix P _ _ (no_error _ _ _ _ _ Hinv Hd) Hs) as HR; unfold call_log in HR; rewrite Hcall in HR; exact HR|]. rewrite Hla in Hi. rewrite Nat.add_1_r. exact Hi.
    - discriminate.
    - (* a rule *)
      intros k' r' tl Hr' Htw IH Hcl s g ts pos k q b r Hinv Hv Hr HX Hl Hf. cbn [leaves] in *. cbn [clean] in Hcl.
      set (n := length (lvs tl)) in *.
      assert (Hk' : k' <> sr).
      { intros ->. unfold rs, sr in Hr'. rewrite augment_start in Hr'. injection Hr' as <-. cbn [r_lhs] in HX.
        destruct (Nat.eq_dec k sr) as [->|Hk].
        - unfold rs, sr in Hr. rewrite augment_start in Hr. injection Hr as <-. simpl in HX. destruct q as [|q]; simpl in HX; [|destruct q; discriminate].
          injection HX as Hstart.
          (* the start symbol has no rule but its own: no finite tree *)
          assert (G : (forall X t, twf tix rs input X t -> X <> NT ss) /\ (forall l ts, twfs tix rs input l ts -> ~ In (NT ss) l)).
          { apply (twf_twfs_ind T tix rs input); try discriminate; auto.
            - intros k0 r0 ts0 Hr0 _ IH0 Heq. injection Heq as Heq. destruct (Nat.eq_dec k0 sr) as [->|Hk0].
              + unfold rs, sr in Hr0. rewrite augment_start in Hr0. injection Hr0 as <-. apply IH0. simpl. left. congruence.
              + unfold rs in Hr0. rewrite augment_old in Hr0 by auto. apply Hss, nonterminals_spec. exists r0. split; [eapply nth_error_In; eauto|]. auto.
            - intros X l t0 ts0 _ IH1 _ IH2 [->|Hin]; [apply IH1; auto|auto]. }
          apply (proj2 G _ _ Htw). simpl. left. congruence.
        - unfold rs in Hr. rewrite augment_old in Hr by auto. apply Hss, nonterminals_spec. exists r. split; [eapply nth_error_In; eauto|].
          right. eapply nth_error_In; eauto. }
      assert (Hv' : valid rs sr g (mk_item k' 0 (la (pos + n)))) by (eapply valid_closure; eauto).
      specialize (IH Hcl s g ts pos k' 0 (la (pos + n)) r' Hinv Hv' Hr' eq_refl Hl eq_refl).
      unfold fin in *. destruct IH as [IH|IH]; [|right; exact IH]. cbn [evl].
      pose proof (lmap_gmap tl) as Egm. destruct (lmap evlt tl) as [L [args|e|]] eqn:Eg; cbn [gbind]; [|left; exact IH|left; exact IH]. cbn [snd] in Egm.
      destruct IH as (s1 & R1 & I1).
      assert (Hcomp : complete rs sr (g ++ r_rhs r') k' (la (pos + n))).
      { exists r'. split; auto. clear - Hv' Hr'.
        assert (G : forall m, m <= length (r_rhs r') -> valid rs sr (g ++ firstn m (r_rhs r')) (mk_item k' m (la (pos + n)))).
        { induction m as [|m IHm]; intros Hm; [rewrite app_nil_r; auto|].
          destruct (nth_error (r_rhs r') m) as [Y|] eqn:EY; [|apply nth_error_None in EY; lia].
          assert (Ef : firstn (S m) (r_rhs r') = firstn m (r_rhs r') ++ [Y]).
          { clear - EY. revert m EY. induction (r_rhs r') as [|Z l IH]; intros [|m] EY; simpl in *; try discriminate; [congruence|]. f_equal. auto. }
          rewrite Ef, app_assoc. eapply valid_goto; eauto. apply IHm. lia. }
        specialize (G _ (le_n _)). rewrite firstn_all in G. exact G. }
      destruct (step_cases tix rules start ss P input Hss Heoi Hcan Hgens s1 _ _ _ I1) as (d & Hd & Hc).
      destruct (decides_complete _ k' _ d Hk' Hcomp Hd) as [->|(-> & Ela & Hearly)].
      + destruct Hc as [(r2 & C1 & _ & _ & _ & Hbad)|(r2 & dd & ts1 & ts2 & args2 & gen & C1 & C2 & C3 & Ccall & C4 & C5 & C6 & C7 & C8 & C9)].
        { exfalso. assert (r2 = r') by (unfold rs in Hr'; congruence). subst r2. clear - Htw Hcl Hbad.
          induction Htw as [|X l t tl Ht Htl IH]; [destruct Hbad|]. simpl in Hcl. apply andb_true_iff in Hcl as [H1 H2].
          destruct Hbad as [->|Hbad]; [inversion Ht; subst; discriminate|auto]. }
        assert (r2 = r') by (unfold rs in Hr'; congruence). subst r2. apply app_inv_tail in C2. subst dd.
        assert (Els : ts1 = ts /\ ts2 = tl).
        { pose proof (inv_stk _ _ _ _ _ _ _ _ _ _ Hinv) as Lst. apply stk_len in Lst; [|exact Hgens].
          assert (length ts1 = length ts) by lia. clear - C4 H. revert ts C4 H. induction ts1 as [|y ts1 IH]; intros [|z ts] C4 H; simpl in *; try discriminate; [split; congruence|].
          injection C4 as C0 C4. destruct (IH ts C4 ltac:(lia)) as [A B]. split; congruence. }
        destruct Els as [-> ->]. assert (args2 = args) by congruence. subst args2.
        left. unfold call. rewrite C8. destruct (gen args) as [v|e|] eqn:Ev; cbn [gbind].
        * destruct C9 as (s2 & Hs2 & I2). exists s2. split; [|auto]. eapply lreach_trans; [eauto|].
          pose proof (lreach_step tix P _ _ (no_error _ _ _ _ _ I1 Hd) Hs2) as HR. unfold call_log in HR. rewrite Ccall in HR. exact HR.
        * destruct C9 as (it & Hit). exists it. eapply lreach_lends; [eauto|].
          pose proof (lends_step tix P _ _ (no_error _ _ _ _ _ I1 Hd) Hit) as HR. unfold call_log in HR. rewrite Ccall in HR. exact HR.
        * eapply lreach_lends; [eauto|]. pose proof (lends_step tix P _ _ (no_error _ _ _ _ _ I1 Hd) C9) as HR. unfold call_log in HR. rewrite Ccall in HR. exact HR.
      + right. split; auto. destruct Hc as (_ & _ & _ & t & v & _ & _ & Hs). exists v. eexists. eapply lreach_lends; [eauto|]. apply lends_step; [exact (no_error _ _ _ _ _ I1 Hd)|auto].
    - (* no symbols left *)
      intros _ s g ts pos k q b r Hinv Hv Hr Hl _ _. simpl. left. exists s. rewrite !app_nil_r, Nat.add_0_r. split; [apply lreach_refl|auto].
    - intros X l t tl Ht IH1 Htl IH2 Hcl s g ts pos k q b r Hinv Hv Hr Hl Hlv Hla.
      simpl in Hcl. apply andb_true_iff in Hcl as [Hc1 Hc2]. destruct (skipn_nth _ _ _ _ Hl) as [HX Hl'].
      cbn [flat_map] in Hlv, Hla |- *. destruct (seq_split_eq _ _ _ Hlv) as [Hlv1 Hlv2].
      rewrite app_length in Hla |- *. rewrite Nat.add_assoc in Hla |- *.
      assert (Hf : firsts rs (skipn (S q) (r_rhs r) ++ [TM b]) (la (pos + length (leaves t)))).
      { rewrite Hl'. pose proof (proj2 (tree_der tix rs input) _ _ Htl Hc2) as Hd. pose proof (ders_firsts rs l _ b Hd) as Hf.
        rewrite Hlv2 in Hf. destruct (length (lvs tl)) as [|m] eqn:Em; simpl in Hf.
        - rewrite Nat.add_0_r in Hla. rewrite Hla. exact Hf.
        - exact Hf. }
      specialize (IH1 Hc1 s g ts pos k q b r Hinv Hv Hr HX Hlv1 Hf). unfold fin in *. cbn [lmap].
      destruct IH1 as [IH1|IH1]; [|right; auto]. destruct (evlt t) as [L1 [a|e|]] eqn:Et; cbn [gbind]; [|left; auto|left; auto].
      destruct IH1 as (s1 & R1 & I1).
      assert (Hv1 : valid rs sr (g ++ [X]) (mk_item k (S q) b)) by (eapply valid_goto; eauto).
      specialize (IH2 Hc2 s1 _ _ _ k (S q) b r I1 Hv1 Hr Hl' Hlv2 Hla).
      rewrite <- !app_assoc in IH2. cbn [app] in IH2.
      destruct IH2 as [IH2|(He & v & L & IH2)]; [left|right; split; [auto|]; exists v; eexists; eapply lreach_lends; eauto].
      destruct (lmap evlt tl) as [L2 [args|e|]]; cbn [fst snd gbind].
      + destruct IH2 as (s2 & R2 & I2). exists s2. split; auto. eapply lreach_trans; eauto.
      + destruct IH2 as (it & IH2). exists it. eapply lreach_lends; eauto.
      + eapply lreach_lends; eauto.
  Qed.

  (** the outcome that an evaluation stands for *)
  Definition result_of (r : gres (arg N T) E) (x : res (outcome N E * list T)) : Prop :=
    match r with
    | GOk (NonTerminal v) => x = Ok (ROk v, [])
    | GOk _ => False
    | GErr e => exists it, x = Ok (RReducer e, it)
    | GPanic => x = Panic
    end.

  Theorem parse_tree t : twf tix rs input (NT start) t -> clean t = true -> leaves t = seq 0 (length input) ->
    exists x L, ends_in (ps_init P input) x L /\ ((result_of (evt t) x /\ L = fst (evlt t)) \/ (early /\ exists v, x = Ok (ROk v, []))).
  Proof.
    intros Ht Hc Hl.
    assert (Hinv : invat (ps_init P input) [] [] 0) by (constructor; simpl; auto; try constructor; auto).
    assert (Hn : length (leaves t) = length input) by (rewrite Hl, seq_length; auto).
    assert (Hla : la (length input) = TEoi) by (unfold la_at; rewrite (proj2 (nth_error_None _ _)); auto).
    pose proof (proj1 run_tree _ _ Ht Hc (ps_init P input) [] [] 0 sr 0 TEoi _ Hinv (valid_start rs sr) (augment_start rules start ss) eq_refl) as R.
    rewrite Hn in R. specialize (R Hl). simpl in R. rewrite Hla in R. specialize (R ltac:(exists []; constructor)).
    destruct R as [R|(He & v & L & R)]; [|exists (Ok (ROk v, [])), L; split; [auto|right; split; eauto]].
    pose proof (evl_snd (pr_gens P) input t) as Esnd. destruct (evlt t) as [L [a|e|]] eqn:Ea; cbn [snd fst] in *; rewrite <- Esnd.
    - destruct R as (s1 & R1 & I1).
      destruct (step_cases tix rules start ss P input Hss Heoi Hcan Hgens s1 _ _ _ I1) as (d & Hd & Hc').
      pose proof Hd as Hd0. rewrite Hla in Hd.
      assert (Hacc : accepting rs sr [NT start]).
      { exists (mk_rule ss [NT start]). split; [apply augment_start|]. change [NT start] with ([] ++ [NT start]).
        eapply valid_goto; [constructor|apply augment_start|reflexivity]. }
      destruct d as [[q|k|]|]; simpl in Hd.
      + exfalso. destruct Hd as [Hw _]. eapply wants_no_eoi; eauto.
      + exfalso. tauto.
      + destruct Hc' as (Hcall & _ & _ & t' & v & E1 & E2 & E3). injection E1 as <-. assert (a = NonTerminal v) by congruence. subst a.
        exists (Ok (ROk v, [])), (L ++ []). split; [|left; split; [reflexivity|apply app_nil_r]].
        eapply lreach_lends; [eauto|]. pose proof (lends_step tix P _ _ (no_error _ _ _ _ _ I1 Hd0) E3) as HR. unfold call_log in HR. rewrite Hcall in HR. exact HR.
      + exfalso. tauto.
    - destruct R as (it & R). exists (Ok (RReducer e, it)), L. split; auto. left. simpl. eauto.
    - exists Panic, L. split; auto. left. split; reflexivity.
  Qed.
End Complete.
