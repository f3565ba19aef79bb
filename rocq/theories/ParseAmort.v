(** * A bound on the turns of [parse] from a measure that every shift and every detected error lowers *)
From Coq Require Import List Arith Lia Bool.
From Verif Require Import Lib Grammar LrModel LrSpec LrSets LrStates LrNew LrTop ParseModel Trees ParseSpec ParseInv ParseComplete GramFacts ParseTerm ParseTop ParseMore ParseLin LoopSpec ParseLoop PropParse PropLr.
Import ListNotations.

Section Amort.
  Context {N T E : Type} (tix : T -> nat).
  Variables (s : syntax N T E) (P : parser N T E) (ws : list warning) (ss : nat) (w : list T).
  Hypothesis Hm : made s P ws ss.
  Notation rs := (augment (gram s) (sx_start s) ss).
  Notation sr := (length (gram s)).
  Notation decides := (decides rs sr (pr_tab P)).
  Notation step := (parse_step tix P).
  Variable cls : pstate N T -> list sym -> list tree -> nat -> nat -> Prop.
  Hypothesis cls_inv : forall st g ts pos V, cls st g ts pos V -> inv_at tix (gram s) (sx_start s) ss P w st g ts pos.
  Hypothesis cls_shift : forall st g ts pos V q st', cls st g ts pos V -> decides g (la_at tix w pos) (Some (Shift q)) -> step st = inl st' ->
    exists g' ts' V', cls st' g' ts' (S pos) V' /\ length g' <= S (length g) /\ V' < V.
  Hypothesis cls_reduce : forall st g ts pos V k st', cls st g ts pos V -> decides g (la_at tix w pos) (Some (Reduce k)) -> step st = inl st' ->
    exists d r ts', nth_error rs k = Some r /\ g = d ++ r_rhs r /\ cls st' (d ++ [NT (r_lhs r)]) ts' pos V.
  Hypothesis cls_error : forall st g ts pos V st', cls st g ts pos V -> decides g (la_at tix w pos) None -> step st = inl st' ->
    exists g' ts' pos' V', cls st' g' ts' pos' V' /\ length g' <= S (length g) /\ V' < V.
  Variables M C : nat.
  Hypothesis Hburst : forall t n g g', above (gram s) (sx_start s) ss t [] n g g' -> n + M * length g' <= M * length g + C.
  Notation above := (above (gram s) (sx_start s) ss).

  Lemma amort fuel : forall st g ts pos V, cls st g ts pos V -> loop step fuel st = OutOfFuel ->
    exists j g', above (la_at tix w pos) [] j g g' /\ fuel <= j + M * length g' + V * (M + C + 1).
  Proof.
    induction fuel as [|fuel IH]; intros st g ts pos V Hcl Hf.
    { exists 0, g. split; [apply above_none|apply Nat.le_0_l]. }
    simpl in Hf. destruct (cases tix s P ws ss w Hm _ _ _ _ (cls_inv _ _ _ _ _ Hcl)) as (d & Hd & Hc). destruct (step st) as [st'|o] eqn:Hs; [|exfalso].
    - assert (Hlow : forall g1 ts1 pos1 V1, cls st' g1 ts1 pos1 V1 -> length g1 <= S (length g) -> V1 < V -> exists j g', above (la_at tix w pos) [] j g g' /\ S fuel <= j + M * length g' + V * (M + C + 1)).
      { intros g1 ts1 pos1 V1 H1 H2 H3. destruct (IH _ _ _ _ _ H1 Hf) as (j & g' & Ha & Hle). exists 0, g. split; [apply above_none|]. apply Hburst in Ha.
        assert (M * length g1 <= M * length g + M) by (rewrite <- Nat.mul_succ_r; apply Nat.mul_le_mono_l; auto).
        assert (V1 * (M + C + 1) + (M + C + 1) <= V * (M + C + 1)) by (change (V1 * (M + C + 1) + (M + C + 1)) with (V1 * (M + C + 1) + (M + C + 1)); rewrite Nat.add_comm; change (M + C + 1 + V1 * (M + C + 1)) with (S V1 * (M + C + 1)); apply Nat.mul_le_mono_r; auto).
        lia. }
      destruct d as [[q|k|]|]; cbn [step_case] in Hc.
      + destruct (cls_shift _ _ _ _ _ _ _ Hcl Hd Hs) as (g1 & ts1 & V1 & H1 & H2 & H3). eauto.
      + destruct (cls_reduce _ _ _ _ _ _ _ Hcl Hd Hs) as (dd & r & ts' & Hr & Eg & H1). destruct (IH _ _ _ _ _ H1 Hf) as (j & g' & Ha & Hle).
        exists (S j), g'. split; [|lia]. rewrite Eg in *. apply (above_one _ _ _ _ _ j dd k r g'); auto.
      + exfalso. destruct Hc as (_ & _ & _ & t & v & _ & _ & Hs'). congruence.
      + destruct (cls_error _ _ _ _ _ _ Hcl Hd Hs) as (g1 & ts1 & p1 & V1 & H1 & H2 & H3). eauto.
    - rewrite Hf in Hs. destruct d as [[q|k|]|]; cbn [step_case] in Hc.
      + destruct Hc as (_ & _ & s' & Hs' & _). congruence.
      + destruct Hc as [(r & _ & _ & Hs' & _)|(r & dd & ts1 & ts2 & args & gen & _ & _ & _ & _ & _ & _ & _ & _ & _ & Hc)]; [congruence|].
        destruct (gen args) as [v|e|]; [destruct Hc as (s' & Hs' & _); congruence|destruct Hc as [it Hs']; congruence|congruence].
      + destruct Hc as (_ & _ & _ & t & v & _ & _ & Hs'). congruence.
      + destruct Hc as [_ [(it & Hs' & _)|(s' & Hs' & _)]]; congruence.
  Qed.
  (** every detected error but the last one lowers the measure *)
  Lemma count fuel : forall st g ts pos V, cls st g ts pos V -> length (errors tix P fuel st) <= V + 1.
  Proof.
    induction fuel as [|fuel IH]; intros st g ts pos V Hcl; [apply Nat.le_0_l|].
    destruct (cases tix s P ws ss w Hm _ _ _ _ (cls_inv _ _ _ _ _ Hcl)) as (d & Hd & Hc). cbn [errors]. rewrite app_length, (err_spec tix s P ws ss w Hm _ _ _ _ _ (cls_inv _ _ _ _ _ Hcl) Hd).
    destruct (step st) as [st'|o] eqn:Hs; [|destruct d; simpl; lia]. destruct d as [[q|k|]|]; cbn [step_case] in Hc; cbn [length].
    - destruct (cls_shift _ _ _ _ _ _ _ Hcl Hd Hs) as (g1 & ts1 & V1 & H1 & _ & H3). specialize (IH _ _ _ _ _ H1). lia.
    - destruct (cls_reduce _ _ _ _ _ _ _ Hcl Hd Hs) as (dd & r & ts' & _ & _ & H1). specialize (IH _ _ _ _ _ H1). lia.
    - exfalso. destruct Hc as (_ & _ & _ & t & v & _ & _ & Hs'). congruence.
    - destruct (cls_error _ _ _ _ _ _ Hcl Hd Hs) as (g1 & ts1 & p1 & V1 & H1 & _ & H3). specialize (IH _ _ _ _ _ H1). lia.
  Qed.
End Amort.

(** the constant depends on the grammar only *)
Lemma burst_const {N T E} (nix : N -> nat) (tix : T -> nat) e (s : syntax N T E) P : api_syntax nix tix s -> makes e s P [] -> productive (gram s) ->
  exists ss M C, made s P [] ss /\ forall t n g g', above (gram s) (sx_start s) ss t [] n g g' -> n + M * length g' <= M * length g + C.
Proof.
  intros Ha Hmk Hp. destruct (makes_made nix tix e s P [] Ha Hmk) as [ss Hm].
  pose proof (rstep_wf _ _ _ (md_fresh _ _ _ _ Hm) (cf_of s P [] ss Hm eq_refl) Hp) as Hwf.
  destruct (burst (gram s) (sx_start s) ss (pr_tab P) (md_can _ _ _ _ Hm) Hwf) as (M & C & HB). exists ss, M, C. auto.
Qed.
