(** * How much [parse] keeps *)
From Coq Require Import List Arith Lia Bool.
From Verif Require Import Lib Grammar LrModel LrSpec LrSets LrStates LrNew LrTop ParseModel Trees ParseSpec ParseInv ParseComplete GramFacts ParseTerm ParseTop ParseMore RuleMap DepthSpec.
Import ListNotations.

Section Count.
  Variables (rules : list rule) (start ss : nat).
  Notation rs := (augment rules start ss).
  Notation sr := (length rules).
  Hypothesis Hss : ~ In ss (nonterminals rules).

  (** the rules under way, the innermost first: what has been read of each *)
  Inductive chain : list (nat * list sym) -> list sym -> nat -> Prop :=
  | chain_start : chain [] [] start
  | chain_in fr g r l B l' : chain fr g (r_lhs r) -> In r rules -> r_rhs r = l ++ NT B :: l' -> chain ((r_lhs r, l) :: fr) (g ++ l) B.

  Lemma nth_firstn {A} (l : list A) p X : nth_error l p = Some X -> l = firstn p l ++ X :: skipn (S p) l /\ firstn (S p) l = firstn p l ++ [X].
  Proof.
    revert p. induction l as [|y l IH]; intros [|p] H; cbn in H; try discriminate.
    - injection H as ->. auto.
    - destruct (IH p H) as [H1 H2]. split; [cbn; f_equal; exact H1|]. cbn [firstn app]. f_equal. exact H2.
  Qed.
  Lemma valid_chain g it : valid rs sr g it -> forall r, nth_error rs (i_rule it) = Some r ->
    (i_rule it = sr /\ g = firstn (i_pos it) [NT start]) \/
    (i_rule it <> sr /\ In r rules /\ exists fr g0, chain fr g0 (r_lhs r) /\ g = g0 ++ firstn (i_pos it) (r_rhs r)).
  Proof.
    induction 1 as [|g k p la r0 X Hv IH Hk HX|g k p la r0 A k' r' t Hv IH Hk HX Hk' El Hf]; intros r Hr; cbn [i_rule i_pos] in *.
    - left. auto.
    - assert (r0 = r) by congruence. subst r0. destruct (nth_firstn _ _ _ HX) as [_ E]. destruct (IH _ Hk) as [(-> & ->)|(Hn & Hin & fr & g0 & Hc & ->)].
      + left. split; auto. rewrite augment_start in Hk. injection Hk as <-. cbn in HX |- *. destruct p as [|[|p]]; try discriminate. cbn in HX. injection HX as <-. reflexivity.
      + right. split; auto. split; auto. exists fr, g0. split; auto. rewrite E, app_assoc. reflexivity.
    - assert (r' = r) by congruence. subst r'.
      destruct (IH _ Hk) as [(-> & ->)|(Hn & Hin & fr & g0 & Hc & ->)].
      + rewrite augment_start in Hk. injection Hk as <-. cbn in HX. destruct p as [|[|p]]; try discriminate. cbn in HX. injection HX as <-. cbn [firstn].
        destruct (Nat.eq_dec k' sr) as [->|Hk1]; [left; auto|]. right. split; auto. rewrite augment_old in Hr by auto. split; [eapply nth_error_In; eauto|]. exists [], []. rewrite El. split; [constructor|reflexivity].
      + destruct (Nat.eq_dec k' sr) as [->|Hk1].
        { exfalso. rewrite augment_start in Hr. injection Hr as <-. cbn in El. subst A. apply Hss, nonterminals_spec. exists r0. split; auto. right. eapply nth_error_In; eauto. }
        right. split; auto. rewrite augment_old in Hr by auto. split; [eapply nth_error_In; eauto|]. destruct (nth_firstn _ _ _ HX) as [E _].
        eexists ((r_lhs r0, firstn p (r_rhs r0)) :: fr), (g0 ++ firstn p (r_rhs r0)). split; [|cbn [firstn]; rewrite app_nil_r; reflexivity].
        rewrite El. econstructor; eauto.
  Qed.

  Lemma chain_inside fr g A : chain fr g A -> comes_up rules start A /\ forall B l, In (B, l) fr -> comes_up rules start B /\ exists l', inside rules B (l ++ l') A.
  Proof.
    induction 1 as [|fr g r l B l' Hc (IH0 & IH) Hin E].
    - split; [left; auto|]. intros B l [].
    - assert (H1 : inside rules (r_lhs r) l B) by (econstructor; eauto). split.
      + right. destruct IH0 as [<-|(l0 & H0)]; [eauto|]. eexists. eapply inside_trans; eauto.
      + intros C l1 [E1|H]; [injection E1 as <- <-; split; auto; exists []; rewrite app_nil_r; auto|].
        destruct (IH _ _ H) as (Hu & l2 & H2). split; auto. exists (l2 ++ l). rewrite app_assoc. eapply inside_trans; eauto.
  Qed.
  Lemma longest_le r : In r rules -> length (r_rhs r) <= longest rules.
  Proof.
    clear Hss. unfold longest. induction rules as [|r0 l IH]; [intros []|]. intros [->|H]; cbn; [lia|]. specialize (IH H). lia.
  Qed.
  Definition solid (f : nat * list sym) : bool := match snd f with [] => false | _ => true end.
  Notation heads fr := (map fst (filter solid fr)).
  Hypothesis Hflat : ~ piles_up rules start.
  Lemma head_new fr g A : chain fr g A -> ~ In A (heads fr).
  Proof.
    intros Hc H. apply in_map_iff in H as ([B l] & <- & H). apply filter_In in H as [H Hs]. cbn in Hc. destruct (chain_inside _ _ _ Hc) as [_ Hi]. destruct (Hi _ _ H) as (Hu & l' & Hin).
    apply Hflat. exists B, (l ++ l'). split; auto. split; auto. destruct l; [discriminate|]. discriminate.
  Qed.
  Lemma chain_count fr g A : chain fr g A -> NoDup (heads fr) /\ (forall B, In B (heads fr) -> In B (map r_lhs rules)) /\ length g <= longest rules * length (heads fr).
  Proof.
    induction 1 as [|fr g r l B l' Hc (IH1 & IH2 & IH3) Hin E]; [split; [constructor|]; split; [intros B []|]; cbn; lia|].
    assert (Hl : length l <= longest rules). { pose proof (longest_le r Hin) as H. rewrite E, app_length in H. lia. }
    rewrite app_length. destruct l as [|X l]; cbn [filter solid snd]; [cbn [length]; rewrite Nat.add_0_r; auto|]. cbn [map fst].
    split; [constructor; auto; eapply head_new; eauto|]. split; [intros C [<-|H]; auto; apply in_map; auto|]. cbn [length] in *. rewrite Nat.mul_succ_r. lia.
  Qed.
  Lemma valid_count g it : valid rs sr g it -> length g <= Nat.max 1 (longest rules * defined_count rules).
  Proof.
    intros Hv. assert (Hr : exists r, nth_error rs (i_rule it) = Some r).
    { clear - Hv. induction Hv; cbn; eauto. exists (mk_rule ss [NT start]). apply augment_start. }
    destruct Hr as [r Hr]. destruct (valid_chain _ _ Hv _ Hr) as [(_ & ->)|(_ & Hin & fr & g0 & Hc & ->)].
    { assert (H : length (firstn (i_pos it) [NT start]) <= 1) by (rewrite firstn_length; apply Nat.le_min_r). eapply Nat.le_trans; [exact H|apply Nat.le_max_l]. }
    destruct (chain_count _ _ _ Hc) as (H1 & H2 & H3). pose proof (head_new _ _ _ Hc) as H4. rewrite app_length.
    assert (H5 : length (firstn (i_pos it) (r_rhs r)) <= length (r_rhs r)) by (rewrite firstn_length; apply Nat.le_min_r). pose proof (longest_le r Hin) as H6.
    assert (H7 : S (length (heads fr)) <= defined_count rules).
    { change (S (length (heads fr))) with (length (r_lhs r :: heads fr)). apply NoDup_incl_length; [constructor; auto|].
      intros B HB. apply nodup_In. destruct HB as [<-|HB]; [apply in_map; auto|auto]. }
    assert (H8 : longest rules * S (length (heads fr)) <= longest rules * defined_count rules) by (apply Nat.mul_le_mono_l; auto). rewrite Nat.mul_succ_r in H8. eapply Nat.le_trans; [|apply Nat.le_max_r]. lia.
  Qed.
End Count.

(** ** The numbers *)
Lemma ranks_at rank a l : forall b B l', ranks_ok rank a b (l ++ NT B :: l') = true -> rank B <= a /\ (b = false \/ l <> [] -> rank B < a).
Proof.
  induction l as [|X l IH]; intros b B l' H; cbn in H.
  - apply andb_true_iff in H as [H _]. destruct b; [apply Nat.leb_le in H|apply Nat.ltb_lt in H]; split; try lia. intros [H1|H1]; [discriminate|congruence].
  - assert (H1 : ranks_ok rank a false (l ++ NT B :: l') = true) by (destruct X; [apply andb_true_iff in H as [_ H]; exact H|exact H]).
    destruct (IH _ _ _ H1) as [H2 H3]. split; auto.
Qed.
Lemma flat_rank rs rank A l B : flat_check rs rank = true -> inside rs A l B -> rank B <= rank A /\ (l <> [] -> rank B < rank A).
Proof.
  intros Hf. induction 1 as [r l B l' Hin E|A l1 B l2 C H1 [IH1 IH1'] H2 [IH2 IH2']].
  - unfold flat_check in Hf. rewrite forallb_forall in Hf. specialize (Hf _ Hin). rewrite E in Hf. destruct (ranks_at _ _ _ _ _ _ Hf) as [H3 H4]. split; auto.
  - split; [lia|]. intros Hne. destruct l1 as [|X l1]; [cbn in Hne; specialize (IH2' Hne); lia|]. specialize (IH1' ltac:(discriminate)). lia.
Qed.
Lemma flat_no_piles rs rank start : flat_check rs rank = true -> ~ piles_up rs start.
Proof. intros Hf (A & l & _ & Hi & Hne). destruct (flat_rank _ _ _ _ _ Hf Hi) as [_ H]. specialize (H Hne). lia. Qed.

(** ** Runs *)
Section Runs.
  Context {N T E : Type} (tix : T -> nat).
  Variables (s : syntax N T E) (P : parser N T E) (ws : list warning) (ss : nat) (w : list T).
  Hypothesis Hm : made s P ws ss.
  Notation rules := (gram s).
  Notation start := (sx_start s).
  Notation rs := (augment rules start ss).
  Notation sr := (length rules).
  Notation invat := (inv_at tix rules start ss P w).
  Notation la := (la_at tix w).

  Lemma kept_syms st g ts pos : invat st g ts pos -> kept st = length g.
  Proof. intros H. unfold kept. pose proof (inv_stk _ _ _ _ _ _ _ _ _ _ H) as L. apply stk_len in L; [|exact (md_len _ _ _ _ Hm)]. apply L. Qed.
  Lemma flat_kept st : ~ piles_up rules start -> turns tix P w st -> kept st <= Nat.max 1 (longest rules * defined_count rules).
  Proof.
    intros Hf Ht. destruct (turns_inv tix s P ws ss w Hm st Ht) as (g & ts & pos & Hi). rewrite (kept_syms _ _ _ _ Hi).
    destruct (proj1 (can_state _ _ _ (md_can _ _ _ _ Hm) g) (ex_intro _ _ (inv_state _ _ _ _ _ _ _ _ _ _ Hi))) as [it Hv].
    eapply valid_count; eauto. apply (md_fresh _ _ _ _ Hm).
  Qed.

  (** *** Without empty right-hand sides *)
  Lemma in_aug r : In r rs -> In r rules \/ r = mk_rule ss [NT start].
  Proof. intros H. unfold augment in H. apply in_app_or in H as [H|[<-|[]]]; auto. Qed.
  Lemma leaves_some : (forall r, In r rules -> r_rhs r <> []) -> error_free s ->
    (forall X t, twf tix rs w X t -> X <> TM TErr -> 1 <= length (leaves t)) /\ (forall l ts, twfs tix rs w l ts -> ~ In (TM TErr) l -> length l <= length (flat_map leaves ts)).
  Proof.
    intros Hne He. apply (twf_twfs_ind T tix rs w).
    - intros; cbn; lia.
    - intros; congruence.
    - intros k r ts Hk _ IH _. cbn. apply nth_error_In, in_aug in Hk. destruct (r_rhs r) as [|X l] eqn:E0.
      + exfalso. destruct Hk as [Hk| ->]; [exact (Hne _ Hk E0)|discriminate].
      + cbn [length] in IH. apply Nat.le_trans with (S (length l)); [lia|]. apply IH. destruct Hk as [Hk| ->]; [rewrite <- E0; apply (He _ Hk)|]. injection E0 as <- <-. intros [H|[]]; discriminate.
    - cbn. lia.
    - intros X l t ts _ H1 _ H2 Hn. cbn. rewrite app_length. cbn in Hn. assert (1 <= length (leaves t)) by (apply H1; intros ->; apply Hn; auto). assert (length l <= length (flat_map leaves ts)) by (apply H2; auto). lia.
  Qed.
  Lemma valid_syms g it : valid rs sr g it -> forall X, In X g -> exists r, In r rs /\ In X (r_rhs r).
  Proof.
    induction 1 as [|g k p la r X Hv IH Hk HX|]; intros Y HY; [destruct HY| |auto]. apply in_app_or in HY as [HY|[<-|[]]]; [auto|]. exists r. split; eapply nth_error_In; eauto.
  Qed.
  Lemma solid_kept st : (forall r, In r rules -> r_rhs r <> []) -> error_free s -> turns tix P w st -> kept st <= length (ps_syms st).
  Proof.
    intros Hne He Ht. destruct (turns_inv tix s P ws ss w Hm st Ht) as (g & ts & pos & Hi). rewrite (kept_syms _ _ _ _ Hi).
    destruct (proj1 (can_state _ _ _ (md_can _ _ _ _ Hm) g) (ex_intro _ _ (inv_state _ _ _ _ _ _ _ _ _ _ Hi))) as [it Hv].
    assert (Hg : ~ In (TM TErr) g).
    { intros H. destruct (valid_syms _ _ Hv _ H) as (r & Hr & HX). apply in_aug in Hr as [Hr| ->]; [exact (He _ Hr HX)|]. destruct HX as [HX|[]]. discriminate. }
    assert (Htw : twfs tix rs w g ts).
    { refine (inv_twfs _ _ _ _ _ _ _ _ _ _ _ _ Hi); [apply (md_len _ _ _ _ Hm)|]. right. exact Hg. }
    pose proof (proj2 (leaves_some Hne He) _ _ Htw Hg) as H. destruct (inv_noerr _ _ _ _ _ _ _ _ _ _ Hi He) as [Hl _]. rewrite Hl, seq_length in H.
    pose proof (inv_pos _ _ _ _ _ _ _ _ _ _ Hi). lia.
  Qed.

  (** *** Where a run of a sentence comes by *)
  Hypothesis Hcf : ws = [].
  Hypothesis Hnc : ~ cyclic rules start.
  Hypothesis Hend : exists v, returns tix P w (ROk v).
  Lemma turns_reaches st : turns tix P w st -> reaches (parse_step tix P) (ps_init P w) st.
  Proof. induction 1 as [|st st' H IH Hs]; [apply reaches_refl|]. eapply reaches_trans; [exact IH|]. apply reaches_step; auto. Qed.
  Lemma turn_ends st x : turns tix P w st -> parse_step tix P st = inr x -> exists v it, x = Ok (ROk v, it).
  Proof.
    intros Ht Hs. destruct Hend as (v & fuel & Hf). pose proof (reaches_ends _ _ _ _ (turns_reaches _ Ht) (ends_step _ _ _ Hs)) as He.
    destruct (ends_fuel _ _ _ fuel He) as [Eo|Eo]; unfold parse, parse_full in Hf; rewrite Eo in Hf; [discriminate|]. destruct x as [[o it]| |]; cbn in Hf; try discriminate. injection Hf as ->. eauto.
  Qed.

  Definition at_ (g : list sym) (pos : nat) : Prop := exists st ts, turns tix P w st /\ invat st g ts pos.
  Definition reads (pos : nat) (u : list term) : Prop := forall i t, nth_error u i = Some t -> la (pos + i) = t.
  Lemma reads_app pos u v : reads pos (u ++ v) <-> reads pos u /\ reads (pos + length u) v.
  Proof.
    split.
    - intros H. split; intros i t Hi.
      + apply H. rewrite nth_error_app1; auto. apply nth_error_Some. congruence.
      + rewrite <- Nat.add_assoc. apply H. rewrite nth_error_app2, Nat.add_comm, Nat.add_sub by lia. auto.
    - intros [H1 H2] i t Hi. destruct (Nat.lt_ge_cases i (length u)) as [Hl|Hl]; [rewrite nth_error_app1 in Hi by auto; auto|].
      rewrite nth_error_app2 in Hi by auto. specialize (H2 _ _ Hi). rewrite <- H2. f_equal. lia.
  Qed.
  Lemma nth_rules k r : nth_error rules k = Some r -> nth_error rs k = Some r /\ k <> sr.
  Proof. intros H. assert (k < sr) by (apply nth_error_Some; congruence). rewrite augment_old by lia. split; auto. lia. Qed.
  Lemma ders_first l v l2 t : ders rules l v -> firsts rs l2 t -> firsts rs (l ++ l2) (match v with [] => t | a :: _ => a end).
  Proof.
    intros Hd (l' & Hl'). assert (Hr : rewr rs l (map TM v)).
    { apply (RuleMap.rewr_incl rules); [intros r Hr; unfold augment; apply in_or_app; auto|]. apply (proj2 (der_rewr rules)); auto. }
    pose proof (rewr_ctx _ _ _ Hr [] l2) as H1. cbn [app] in H1. destruct v as [|a v]; cbn in H1.
    - exists l'. eapply rewr_trans; eauto.
    - eexists. exact H1.
  Qed.
  Lemma la_next pos v : reads pos v -> la pos = match v with [] => la (pos + length v) | a :: _ => a end.
  Proof. intros H. destruct v as [|a v]; [cbn; f_equal; lia|]. specialize (H 0 a eq_refl). rewrite Nat.add_0_r in H. auto. Qed.

  Theorem run_der :
    (forall X u, der rules X u -> forall g pos k q b r, at_ g pos -> valid rs sr g (mk_item k q b) -> nth_error rs k = Some r -> nth_error (r_rhs r) q = Some X ->
       X <> TM TEoi -> reads pos u -> firsts rs (skipn (S q) (r_rhs r) ++ [TM b]) (la (pos + length u)) -> at_ (g ++ [X]) (pos + length u)) /\
    (forall l u, ders rules l u -> forall g pos k q b r l2, at_ g pos -> valid rs sr g (mk_item k q b) -> nth_error rs k = Some r -> skipn q (r_rhs r) = l ++ l2 ->
       ~ In (TM TEoi) l -> reads pos u -> firsts rs (l2 ++ [TM b]) (la (pos + length u)) -> at_ (g ++ l) (pos + length u) /\ valid rs sr (g ++ l) (mk_item k (q + length l) b)).
  Proof.
    apply (der_ders_ind rules).
    - intros t g pos k q b r (st & ts & Ht & Hi) Hv Hk HX Hne Hr Hf. pose proof (Hr 0 t eq_refl) as Hla. rewrite Nat.add_0_r in Hla.
      destruct (cases tix s P ws ss w Hm _ _ _ _ Hi) as (d & Hd & Hc).
      assert (Hw : wants rs sr g (TM (la pos))) by (rewrite Hla; exists k, q, b, r; auto).
      destruct (decides_wants rules start ss P g (la pos) d Hw Hd) as [qq ->]. cbn [step_case] in Hc. destruct Hc as (_ & _ & s' & Hs & Hi').
      exists s', (ts ++ [Leaf pos]). split; [eapply turns_step; eauto|]. rewrite Hla in Hi'. cbn [length]. rewrite Nat.add_1_r. exact Hi'.
    - intros r' u Hin Hd IH g pos k q b r Ha Hv Hk HX Hne Hr Hf. apply In_nth_error in Hin as [k' Hk']. destruct (nth_rules _ _ Hk') as [Hk1 Hk2].
      assert (Hv' : valid rs sr g (mk_item k' 0 (la (pos + length u)))) by (eapply valid_closure; eauto).
      destruct (IH g pos k' 0 (la (pos + length u)) r' [] Ha Hv' Hk1) as [Ha' Hv2]; auto.
      { cbn. rewrite app_nil_r. auto. }
      { intros H. apply (md_eoi _ _ _ _ Hm r' (nth_error_In _ _ Hk') H). }
      { exists []. constructor. }
      destruct Ha' as (st & ts & Ht & Hi). cbn [Nat.add] in Hv2.
      assert (Hcomp : complete rs sr (g ++ r_rhs r') k' (la (pos + length u))) by (exists r'; auto).
      destruct (cases tix s P ws ss w Hm _ _ _ _ Hi) as (d & Hd' & Hc).
      destruct (decides_complete rules start ss P (proj1 (md_free _ _ _ _ Hm) Hcf) _ k' _ d Hk2 Hcomp Hd') as [->|(-> & _ & Hearly)].
      2:{ exfalso. apply Hnc. apply (early_cyclic rules start ss (md_fresh _ _ _ _ Hm) (md_eoi _ _ _ _ Hm) Hearly). }
      cbn [step_case] in Hc. destruct Hc as [(r2 & C1 & _ & Hs & _)|(r2 & dd & ts1 & ts2 & args2 & gen & C1 & C2 & C3 & Ccall & C4 & C5 & C6 & C7 & C8 & C9)].
      { destruct (turn_ends _ _ Ht Hs) as (v & it & H). discriminate. }
      assert (r2 = r') by congruence. subst r2. apply app_inv_tail in C2. subst dd.
      destruct (gen args2) as [v|e|].
      + destruct C9 as (s' & Hs & Hi'). exists s', (ts1 ++ [Node k' ts2]). split; [eapply turns_step; eauto|exact Hi'].
      + destruct C9 as (it & Hs). destruct (turn_ends _ _ Ht Hs) as (v & it' & H). discriminate.
      + destruct (turn_ends _ _ Ht C9) as (v & it' & H). discriminate.
    - intros g pos k q b r l2 Ha Hv Hk _ _ _ _. cbn. rewrite app_nil_r, !Nat.add_0_r. auto.
    - intros X l u v _ IH1 Hl IH2 g pos k q b r l2 Ha Hv Hk Hsk Hne Hr Hf. apply reads_app in Hr as [Hr1 Hr2]. cbn [app] in Hsk. destruct (skipn_nth _ _ _ _ Hsk) as [HX Hsk'].
      rewrite app_length, Nat.add_assoc in Hf |- *.
      assert (Ha1 : at_ (g ++ [X]) (pos + length u)).
      { eapply IH1; eauto; [intros ->; apply Hne; left; auto|]. rewrite Hsk', <- app_assoc. rewrite (la_next _ _ Hr2). apply ders_first; auto. }
      assert (Hv1 : valid rs sr (g ++ [X]) (mk_item k (S q) b)) by (eapply valid_goto; eauto).
      destruct (IH2 _ _ k (S q) b r l2 Ha1 Hv1 Hk Hsk') as [Ha2 Hv2]; auto; [intros H; apply Hne; right; auto|].
      rewrite <- app_assoc in Ha2, Hv2. cbn [app] in Ha2, Hv2. split; auto. cbn [length]. rewrite Nat.add_succ_r. exact Hv2.
  Qed.

  (** [A] is wanted behind [g], what follows it in the rule can begin with what follows its [n] tokens in the input *)
  Definition opens (g : list sym) (pos A n : nat) : Prop :=
    at_ g pos /\ exists k q b r, valid rs sr g (mk_item k q b) /\ nth_error rs k = Some r /\ nth_error (r_rhs r) q = Some (NT A) /\
      firsts rs (skipn (S q) (r_rhs r) ++ [TM b]) (la (pos + n)).
  Lemma opens_rule r l B l' u x v g pos : In r rules -> r_rhs r = l ++ NT B :: l' -> ders rules l u -> ders rules l' v -> der rules (NT B) x ->
    opens g pos (r_lhs r) (length (u ++ x ++ v)) -> reads pos (u ++ x ++ v) -> opens (g ++ l) (pos + length u) B (length x).
  Proof.
    intros Hin E0 Hl Hl' Hx (Ha & k & q & b & r0 & Hv & Hk & HX & Hf) Hr. pose proof Hin as Hin0. apply In_nth_error in Hin as [k' Hk']. destruct (nth_rules _ _ Hk') as [Hk1 Hk2].
    assert (Hv' : valid rs sr g (mk_item k' 0 (la (pos + length (u ++ x ++ v))))) by (eapply valid_closure; eauto).
    apply reads_app in Hr as [Hr1 Hr2]. pose proof Hr2 as Hr2'. apply reads_app in Hr2 as [Hrx Hrv].
    assert (Hne : ~ In (TM TEoi) (r_rhs r)) by (apply (md_eoi _ _ _ _ Hm r Hin0)).
    assert (Hfb : firsts rs (l' ++ [TM (la (pos + length (u ++ x ++ v)))]) (la (pos + length u + length x))).
    { rewrite (la_next _ _ Hrv). replace (pos + length u + length x + length v) with (pos + length (u ++ x ++ v)) by (rewrite !app_length; lia). apply ders_first; auto. exists []. constructor. }
    destruct (proj2 run_der l u Hl g pos k' 0 _ r (NT B :: l') Ha Hv' Hk1) as [Ha' Hv2]; auto.
    { intros H. apply Hne. rewrite E0. apply in_or_app. auto. }
    { rewrite (la_next _ _ Hr2'). replace (pos + length u + length (x ++ v)) with (pos + length (u ++ x ++ v)) by (rewrite !app_length; lia). apply ders_first; [constructor; auto|]. exists []. constructor. }
    split; auto. exists k', (0 + length l), (la (pos + length (u ++ x ++ v))), r. split; auto. split; auto. split; [rewrite E0, nth_error_app2, Nat.sub_diag by lia; reflexivity|].
    rewrite E0. replace (skipn (S (0 + length l)) (l ++ NT B :: l')) with l'; auto. cbn [Nat.add]. clear. induction l; cbn; auto.
  Qed.
End Runs.

Section Grow.
  Context {N T E : Type} (tix : T -> nat).
  Variables (s : syntax N T E) (P : parser N T E) (ss : nat).
  Hypothesis Hm : made s P [] ss.
  Notation rules := (gram s).
  Notation start := (sx_start s).
  Hypothesis Hnc : ~ cyclic rules start.
  Hypothesis Hp : productive rules.
  Notation opens w := (opens tix s P ss w).
  Notation reads w := (reads tix w).
  Definition goes_by (w : list T) : Prop := exists v, returns tix P w (ROk v).
  Definition path (A : nat) (l : list sym) (B : nat) (u v : list term) : Prop :=
    forall x, der rules (NT B) x -> der rules (NT A) (u ++ x ++ v) /\
      forall w g pos, goes_by w -> opens w g pos A (length (u ++ x ++ v)) -> reads w pos (u ++ x ++ v) -> opens w (g ++ l) (pos + length u) B (length x).
  Lemma path_trans A l1 B u1 v1 l2 C u2 v2 : path A l1 B u1 v1 -> path B l2 C u2 v2 -> path A (l1 ++ l2) C (u1 ++ u2) (v2 ++ v1).
  Proof.
    intros P1 P2 x Hx. destruct (P2 _ Hx) as [D2 R2]. destruct (P1 _ D2) as [D1 R1].
    assert (Eq : (u1 ++ u2) ++ x ++ v2 ++ v1 = u1 ++ (u2 ++ x ++ v2) ++ v1) by (rewrite <- !app_assoc; reflexivity). rewrite Eq. split; auto.
    intros w g pos Hw Ho Hr. pose proof (R1 _ _ _ Hw Ho Hr) as Ho1. apply reads_app in Hr as [_ Hr]. apply reads_app in Hr as [Hr _].
    specialize (R2 _ _ _ Hw Ho1 Hr). rewrite app_assoc, app_length, Nat.add_assoc. exact R2.
  Qed.
  Lemma inside_path A l B : inside rules A l B -> exists u v, path A l B u v.
  Proof.
    induction 1 as [r l B l' Hin E0|A l1 B l2 C H1 (u1 & v1 & IH1) H2 (u2 & v2 & IH2)]; [|eauto using path_trans].
    destruct (GramFacts.ders_all rules l') as [v Hv]; [intros X HX; eapply Hp; eauto; rewrite E0; apply in_or_app; right; right; auto|].
    destruct (GramFacts.ders_all rules l) as [u Hu]; [intros X HX; eapply Hp; eauto; rewrite E0; apply in_or_app; auto|].
    exists u, v. intros x Hx. split; [constructor; auto; rewrite E0; apply GramFacts.ders_app; auto; constructor; auto|]. intros w g pos Hw. eapply opens_rule; eauto.
  Qed.
  Lemma path_here A : path A [] A [] [].
  Proof. intros x Hx. rewrite !app_nil_r. cbn. split; auto. intros w g pos _ Ho _. rewrite app_nil_r, Nat.add_0_r. auto. Qed.
  Lemma path_times A l u v : path A l A u v -> forall n, exists lr ur vr, path A lr A ur vr /\ length lr = n * length l /\ length ur = n * length u /\ length vr = n * length v.
  Proof.
    intros H n. induction n as [|n (lr & ur & vr & IH & H1 & H2 & H3)]; [exists [], [], []; split; [apply path_here|auto]|].
    exists (l ++ lr), (u ++ ur), (vr ++ v). split; [eapply path_trans; eauto|]. rewrite !app_length. cbn. lia.
  Qed.
  Lemma opens_start w n : n = length w -> opens w [] 0 start n.
  Proof.
    intros ->. split; [exists (ps_init P w), []; split; [constructor|apply at_init]|].
    exists (length rules), 0, TEoi, (mk_rule ss [NT start]). split; [constructor|]. split; [apply augment_start|]. split; auto. cbn.
    replace (la_at tix w (length w)) with TEoi; [exists []; constructor|]. unfold la_at. rewrite (proj2 (nth_error_None _ _)); auto.
  Qed.
  (** tokens for the terminals that can occur in a string *)
  Hypothesis Htok : forall k r, In r rules -> In (TM (TSym k)) (r_rhs r) -> exists x, tix x = k.
  Hypothesis Hne : error_free s.
  Lemma terms_in : (forall X u, der rules X u -> (forall t, X = TM t -> exists r, In r rules /\ In (TM t) (r_rhs r)) -> forall t, In t u -> exists r, In r rules /\ In (TM t) (r_rhs r)) /\
    (forall l u, ders rules l u -> (forall t, In (TM t) l -> exists r, In r rules /\ In (TM t) (r_rhs r)) -> forall t, In t u -> exists r, In r rules /\ In (TM t) (r_rhs r)).
  Proof.
    apply (der_ders_ind rules).
    - intros t H t' [<-|[]]. auto.
    - intros r u Hin _ IH _ t Ht. apply IH; auto. intros t' Ht'. eauto.
    - intros _ t [].
    - intros X l u v _ IH1 _ IH2 H t Ht. apply in_app_or in Ht as [Ht|Ht]; [apply IH1; auto; intros t' ->; apply H; left; auto|apply IH2; auto; intros t' Ht'; apply H; right; auto].
  Qed.
  Lemma word_of A u : der rules (NT A) u -> exists w, kinds tix w = u.
  Proof.
    intros Hd. assert (Hu : forall t, In t u -> exists r, In r rules /\ In (TM t) (r_rhs r)) by (apply (proj1 terms_in _ _ Hd); discriminate). clear Hd.
    induction u as [|t u IH]; [exists []; reflexivity|]. destruct IH as [w Hw]; [intros; apply Hu; right; auto|].
    destruct (Hu t (or_introl eq_refl)) as (r & Hr & Ht). destruct t as [k| |].
    - destruct (Htok _ _ Hr Ht) as [x Hx]. exists (x :: w). unfold kinds in *. cbn. rewrite Hx, Hw. reflexivity.
    - destruct (Hne _ Hr Ht).
    - destruct (md_eoi _ _ _ _ Hm _ Hr Ht).
  Qed.
  Lemma inside_der A l B : inside rules A l B -> exists x, der rules (NT B) x.
  Proof. induction 1 as [r l B l' Hin E0| ]; auto. apply (Hp r); auto. rewrite E0. apply in_or_app. right. left. auto. Qed.
  Lemma kinds_reads w : reads w 0 (kinds tix w).
  Proof. intros i t Hi. unfold kinds in Hi. rewrite nth_error_map in Hi. cbn. unfold la_at. destruct (nth_error w i); [injection Hi as <-; reflexivity|discriminate]. Qed.
  Lemma piles_grow : (forall w, derivable tix s w -> goes_by w) -> piles_up rules start ->
    exists c, forall n, exists w st, derivable tix s w /\ length w <= c * (n + 1) /\ turns tix P w st /\ n <= kept st.
  Proof.
    intros Hgo (A & l & Hup & Hi & Hl).
    assert (H0 : exists l0 u0 v0, path start l0 A u0 v0).
    { destruct Hup as [->|(l0 & H)]; [exists [], [], []; apply path_here|]. destruct (inside_path _ _ _ H) as (u0 & v0 & H'). eauto. }
    destruct H0 as (l0 & u0 & v0 & H0). destruct (inside_path _ _ _ Hi) as (u & v & H1). destruct (inside_der _ _ _ Hi) as [x Hx].
    exists (length u0 + length u + length x + length v + length v0). intros n.
    destruct (path_times _ _ _ _ H1 n) as (lr & ur & vr & H2 & E1 & E2 & E3). pose proof (path_trans _ _ _ _ _ _ _ _ _ H0 H2) as H3.
    destruct (H3 x Hx) as [Hd Hrun]. destruct (word_of _ _ Hd) as [w Hw]. exists w.
    assert (Hlen : length w = length ((u0 ++ ur) ++ x ++ vr ++ v0)) by (rewrite <- Hw; unfold kinds; rewrite map_length; reflexivity).
    assert (Hder : derivable tix s w) by (unfold derivable; rewrite Hw; exact Hd).
    destruct (Hrun w [] 0 (Hgo _ Hder)) as [(st & ts & Ht & Hinv) _]; [apply opens_start; auto|rewrite <- Hw; apply kinds_reads|].
    exists st. split; auto. split; [rewrite Hlen, !app_length, E2, E3; nia|]. split; auto. rewrite (kept_syms tix s P [] ss w Hm _ _ _ _ Hinv). cbn [app]. rewrite app_length, E1. destruct l; [congruence|]. cbn [length]. nia.
  Qed.
End Grow.
