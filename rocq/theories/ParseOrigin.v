(** * Where the values that reducers receive come from *)
From Coq Require Import List Arith Lia Bool Sorted.
From Verif Require Import Lib Grammar LrModel LrSpec LrTop ParseModel Trees ParseSpec ParseInv ParseTop ParseMore.
Import ListNotations.

Section Origin.
  Context {N T E : Type} (tix : T -> nat).
  Variables (s : syntax N T E) (P : parser N T E) (ws : list warning) (ss : nat) (w : list T).
  Hypothesis Hm : made s P ws ss.
  Notation rules := (gram s).
  Notation start := (sx_start s).
  Notation invat := (inv_at tix rules start ss P w).

  (** the value [v] was returned by one of the calls [L], of the reducer of a rule for [A] *)
  Notation from L A v := (exists k args r, In (k, args) L /\ nth_error rules k = Some r /\ r_lhs r = A /\ call (gens s) k args = GOk v).
  Definition origins (L : list (nat * list (arg N T))) (l : list sym) (args : list (arg N T)) : Prop :=
    forall j A v, nth_error l j = Some (NT A) -> nth_error args j = Some (NonTerminal v) -> from L A v.

  Lemma node_origin k ts r v L : nth_error rules k = Some r -> incl (fst (evl (gens s) w (Node k ts))) L ->
    ev (gens s) w (Node k ts) = GOk (NonTerminal v) -> from L (r_lhs r) v.
  Proof.
    intros Hr Hi He. rewrite <- evl_snd in He. cbn [evl] in Hi, He. destruct (lmap (evl (gens s) w) ts) as [c [args|x|]]; try discriminate.
    cbn [fst snd] in *. destruct (call (gens s) k args) as [v'| |] eqn:Ec; try discriminate. cbn [gbind] in He. injection He as <-.
    exists k, args, r. split; auto. apply Hi. apply in_or_app. simpl. auto.
  Qed.
  Lemma tree_origin A t v L : twf tix rules w (NT A) t -> incl (fst (evl (gens s) w t)) L -> ev (gens s) w t = GOk (NonTerminal v) -> from L A v.
  Proof. intros H. inversion H; subst. eapply node_origin; eauto. Qed.
  Lemma trees_origin l ts args L : twfs tix rules w l ts -> Forall (fun t => incl (fst (evl (gens s) w t)) L) ts ->
    gmap (ev (gens s) w) ts = GOk args -> origins L l args.
  Proof.
    intros H. revert args. induction H as [|X l t ts Ht Hts IH]; intros args Hf Ha j A v Hl Hv.
    - destruct j; discriminate.
    - cbn [gmap] in Ha. destruct (ev (gens s) w t) as [a| |] eqn:Et; try discriminate. cbn [gbind] in Ha.
      destruct (gmap (ev (gens s) w) ts) as [bs| |]; try discriminate. cbn [gbind] in Ha. injection Ha as <-. inversion Hf; subst. destruct j as [|j]; simpl in Hl, Hv.
      + injection Hl as ->. injection Hv as ->. eapply tree_origin; eauto.
      + eapply (IH bs); eauto.
  Qed.
  Lemma lmap_incl ts : forall L, Forall (fun t => incl (fst (evl (gens s) w t)) L) ts -> incl (fst (lmap (evl (gens s) w) ts)) L.
  Proof.
    induction ts as [|t ts IH]; intros L H; simpl; [intros x []|]. inversion H as [|? ? H1 H2]; subst. destruct (evl (gens s) w t) as [c [b|x|]]; simpl in *; auto.
    apply incl_app; auto.
  Qed.

  Lemma evl_gmap ts : gmap (fun t => snd (evl (gens s) w t)) ts = gmap (ev (gens s) w) ts.
  Proof. induction ts as [|t ts IH]; simpl; auto. rewrite evl_snd, IH. reflexivity. Qed.

  Definition seen (L : list (nat * list (arg N T))) (ts : list tree) : Prop := Forall (fun t => incl (fst (evl (pr_gens P) w t)) L) ts.
  Lemma seen_more L c ts : seen L ts -> seen (L ++ c) ts.
  Proof. apply Forall_impl. intros t H. apply incl_appl. auto. Qed.
  Lemma seen_made l ts L : twfs tix rules w l ts -> seen L ts -> Forall (fun t => incl (fst (evl (gens s) w t)) L) ts.
  Proof.
    induction 1 as [|X l t ts Ht Hts IH]; intros H; constructor; inversion H; subst; auto. rewrite <- (evl_made tix s P ws ss w Hm X t Ht). auto.
  Qed.

  Notation rhs_of k := (match nth_error rules k with Some r => r_rhs r | None => [] end).
  (** every call gets its values from earlier calls, and so does the result *)
  Lemma calls_origin fuel : forall st g ts pos L, invat st g ts pos -> seen L ts ->
    (forall L1 k args L2, calls tix P fuel st = L1 ++ (k, args) :: L2 -> k < length rules /\ origins (L ++ L1) (rhs_of k) args) /\
    (forall v it, loop (parse_step tix P) fuel st = Ok (ROk v, it) -> from (L ++ calls tix P fuel st) start v).
  Proof.
    induction fuel as [|fuel IH]; intros st g ts pos L Hinv Hs.
    { split; [intros [|] ? ? ?; discriminate|discriminate]. }
    cbn [calls loop]. destruct (cases tix s P ws ss w Hm _ _ _ _ Hinv) as (d & Hd & Hc). destruct d as [[q|k|]|]; cbn [step_case] in Hc.
    - destruct Hc as (-> & _ & s' & -> & Hi). simpl. eapply IH; eauto. apply Forall_app. split; auto. constructor; [|constructor]. intros x [].
    - destruct Hd as (_ & _ & Hk & _).
      destruct Hc as [(r & _ & -> & -> & _)|(r & dd & ts1 & ts2 & args & gen & Hr & _ & _ & -> & Ets & _ & Htw & Ha & Hg & Hc)].
      { simpl. split; [intros [|] ? ? ?; discriminate|discriminate]. }
      pose proof (rule_old s ss _ _ Hk Hr) as Hr'. pose proof (twfs_old tix s P ws ss w Hm _ _ _ Hr' Htw) as Htw'.
      rewrite Ets in Hs. apply Forall_app in Hs as [Hs1 Hs2].
      pose proof (seen_made _ _ _ Htw' Hs2) as Hs2'. pose proof Ha as Ha'. rewrite (gmap_made tix s P ws ss w Hm _ _ Htw') in Ha'.
      pose proof (trees_origin _ _ _ _ Htw' Hs2' Ha') as Ho. pose proof (nth_error_Some_lt _ _ _ Hr') as Hlt.
      assert (Hnow : k < length rules /\ origins (L ++ []) (rhs_of k) args) by (rewrite Hr', app_nil_r; auto).
      cbn [app].
      assert (Hgo : forall s', parse_step tix P st = inl s' -> inv_at tix rules start ss P w s' (dd ++ [NT (r_lhs r)]) (ts1 ++ [Node k ts2]) pos ->
        (forall L1 k0 args0 L2, (k, args) :: calls tix P fuel s' = L1 ++ (k0, args0) :: L2 -> k0 < length rules /\ origins (L ++ L1) (rhs_of k0) args0) /\
        (forall v it, loop (parse_step tix P) fuel s' = Ok (ROk v, it) -> from (L ++ (k, args) :: calls tix P fuel s') start v)).
      { intros s' Hst Hi. assert (Hs' : seen (L ++ [(k, args)]) (ts1 ++ [Node k ts2])).
        { apply Forall_app. split; [apply seen_more; auto|]. constructor; [|constructor].
          assert (Htn : twf tix rules w (NT (r_lhs r)) (Node k ts2)) by (constructor; auto).
          rewrite (evl_made tix s P ws ss w Hm _ _ Htn). cbn [evl]. pose proof (lmap_incl ts2 L Hs2') as Hli. pose proof (lmap_snd (evl (gens s) w) ts2) as Hls.
          rewrite evl_gmap, Ha' in Hls.
          destruct (lmap (evl (gens s) w) ts2) as [c [b|x|]]; simpl in Hls; try discriminate. injection Hls as ->. simpl in *.
          apply incl_app; [apply incl_appl; auto|]. apply incl_appr. apply incl_refl. }
        destruct (IH s' _ _ _ _ Hi Hs') as [H1 H2]. split.
        - intros L1 k0 args0 L2 He. destruct L1 as [|c L1]; simpl in He.
          + injection He as <- <- _. auto.
          + injection He as <- He. specialize (H1 _ _ _ _ He). rewrite <- app_assoc in H1. exact H1.
        - intros v it He. specialize (H2 _ _ He). rewrite <- app_assoc in H2. exact H2. }
      assert (Hone : forall L1 k0 args0 L2, [(k, args)] = L1 ++ (k0, args0) :: L2 -> k0 < length rules /\ origins (L ++ L1) (rhs_of k0) args0).
      { intros [|c L1] k0 args0 L2 He; simpl in He; [injection He as <- <- _; auto|]. injection He as _ He. destruct L1; discriminate. }
      destruct (gen args) as [v|e|].
      + destruct Hc as (s' & Hst & Hi). specialize (Hgo _ Hst Hi). rewrite Hst. exact Hgo.
      + destruct Hc as (it & Hst). rewrite Hst. split; auto. discriminate.
      + rewrite Hc. split; auto. discriminate.
    - destruct Hc as (-> & _ & -> & t & v & -> & Hev & ->). split; [intros [|] ? ? ?; discriminate|].
      intros v' it H. injection H as <- <-. simpl. rewrite app_nil_r.
      assert (Hg : w <> [] \/ ~ In (TM TErr) [NT start]) by (right; simpl; intros [Q|[]]; discriminate).
      pose proof (inv_twfs tix rules start ss P w (md_len _ _ _ _ Hm) _ _ _ _ Hg Hinv) as Htw. inversion Htw as [|? ? ? ? Ht _]; subst.
      apply (twf_aug tix rules start ss w (md_fresh _ _ _ _ Hm)) in Ht. inversion Hs as [|? ? Hs1 _]; subst.
      rewrite (evl_made tix s P ws ss w Hm _ _ Ht) in Hs1. rewrite (ev_made tix s P ws ss w Hm _ _ Ht) in Hev. eapply tree_origin; eauto.
    - destruct Hc as (-> & [(it & -> & _)|(s' & -> & _ & g' & ts' & ts2 & lo & hi & pos' & Ets & _ & _ & _ & _ & Hi)]); simpl.
      + split; [intros [|] ? ? ?; discriminate|discriminate].
      + eapply IH; eauto. rewrite Ets in Hs. apply Forall_app in Hs as [Hs _]. apply Forall_app. split; auto. constructor; [|constructor]. intros x [].
  Qed.
End Origin.
