(** * Uniqueness of derivation trees; adding rules *)
From Coq Require Import List Arith Lia Bool Sorted.
From Verif Require Import Lib Grammar LrModel LrSpec LrSets LrStates LrNew LrTop LrMono ParseModel Trees ParseSpec ParseInv ParseComplete GramFacts ParseTerm ParseTop ParseMore.
Import ListNotations.

(** ** A parser whose reducers build the tree *)
Section Amb.
  Context {N T E : Type} (tix : T -> nat).
  Variables (s : syntax N T E) (P : parser N T E) (ws : list warning) (ss : nat) (w : list T).
  Hypothesis Hm : made s P ws ss.
  Notation rules := (gram s).
  Notation start := (sx_start s).
  Notation rs := (augment rules start ss).

  Definition arg_tree (a : arg tree nat) : tree := match a with NonTerminal t => t | Terminal i => Leaf i | ErrorSym _ => Bad 0 0 end.
  Definition tree_arg (t : tree) : arg tree nat := match t with Leaf i => Terminal i | _ => NonTerminal t end.
  Definition tgen (k : nat) : reducer tree nat unit := fun args => GOk (Node k (map arg_tree args)).
  Definition tgens : list (reducer tree nat unit) := map tgen (seq 0 (length rs)).
  Definition tparser : parser tree nat unit := mk_lr1 (pr_tab P) tgens.
  Definition ttix (i : nat) : nat := match nth_error w i with Some x => tix x | None => 0 end.
  Definition tinput : list nat := seq 0 (length w).

  Lemma ttwf : (forall X t, twf tix rs w X t -> twf ttix rs tinput X t) /\ (forall l ts, twfs tix rs w l ts -> twfs ttix rs tinput l ts).
  Proof.
    apply (twf_twfs_ind T tix rs w); intros; try (constructor; auto; fail).
    - assert (Hl : i < length w) by (eapply nth_error_Some_lt; eauto).
      assert (Hi : nth_error tinput i = Some i). { unfold tinput. rewrite (nth_error_nth' _ 0) by (rewrite seq_length; auto). rewrite seq_nth; auto. }
      replace (tix x) with (ttix i) by (unfold ttix; rewrite H; auto). constructor. auto.
    - constructor; auto. unfold tinput. rewrite seq_length. auto.
  Qed.
  Lemma tev : (forall X t, twf ttix rs tinput X t -> clean t = true -> ev tgens tinput t = GOk (tree_arg t)) /\
    (forall l ts, twfs ttix rs tinput l ts -> forallb clean ts = true -> gmap (ev tgens tinput) ts = GOk (map tree_arg ts)).
  Proof.
    apply (twf_twfs_ind nat ttix rs tinput).
    - intros i x Hx _. cbn [ev]. rewrite Hx. assert (Hl : i < length tinput) by (eapply nth_error_Some_lt; eauto). unfold tinput in *. rewrite seq_length in Hl.
      rewrite (nth_error_nth' _ 0) in Hx by (rewrite seq_length; auto). rewrite seq_nth in Hx by auto. simpl in Hx. injection Hx as <-. reflexivity.
    - discriminate.
    - intros k r ts Hr Hts IH Hc. simpl in Hc. cbn [ev]. rewrite (IH Hc). cbn [gbind]. unfold call, tgens. rewrite nth_error_map.
      assert (Hl : k < length rs) by (eapply nth_error_Some_lt; eauto). rewrite (nth_error_nth' _ 0) by (rewrite seq_length; auto). rewrite seq_nth by auto. cbn [option_map].
      unfold tgen. cbn [gbind Nat.add]. rewrite map_map. cbn [tree_arg]. assert (Em : map (fun x => arg_tree (tree_arg x)) ts = ts); [|rewrite Em; reflexivity]. clear - Hts Hc.
      induction Hts as [|X l t ts Ht Hts IH]; auto. simpl in *. apply andb_true_iff in Hc as [H1 H2]. specialize (IH H2). destruct t; simpl in *; try discriminate; f_equal; auto; try congruence.
    - reflexivity.
    - intros X l t ts Ht IH1 Hts IH2 Hc. simpl in Hc. apply andb_true_iff in Hc as [H1 H2]. cbn [gmap]. rewrite (IH1 H1), (IH2 H2). reflexivity.
  Qed.

  Lemma unique_tree t1 t2 : ws = [] -> ~ cyclic rules start -> proper_tree tix s w t1 -> proper_tree tix s w t2 -> t1 = t2.
  Proof.
    intros Hw Hnc H1 H2.
    assert (G : forall t, proper_tree tix s w t -> exists L, lends ttix tparser (ps_init tparser tinput) (Ok (ROk t, [])) L).
    { intros t [[Ht Hl] Hc]. pose proof (proj2 (twf_aug tix rules start ss w (md_fresh _ _ _ _ Hm) t) Ht) as Ht'.
      pose proof (proj1 ttwf _ _ Ht') as Ht2.
      assert (Hlen : length (pr_gens tparser) = length rs) by (unfold tparser, tgens; cbn [pr_gens]; rewrite map_length, seq_length; auto).
      assert (Hl2 : leaves t = seq 0 (length tinput)) by (unfold tinput; rewrite seq_length; auto).
      destruct (parse_tree ttix rules start ss tparser tinput (md_fresh _ _ _ _ Hm) (md_eoi _ _ _ _ Hm) (md_can _ _ _ _ Hm) Hlen (cf_of s P ws ss Hm Hw) t Ht2 Hc Hl2)
        as (x & L & A & B).
      change (pr_gens tparser) with tgens in B. rewrite (proj1 tev _ _ Ht2 Hc) in B. destruct B as [[B _]|[B _]]; [|exfalso; apply Hnc; eapply early_cyc; eauto].
      exists L. inversion Ht2 as [| |k r ts Hr Hts]; subst. simpl in B. subst x. exact A. }
    destruct (G _ H1) as [L1 G1]. destruct (G _ H2) as [L2 G2]. apply lends_ends in G1. apply lends_ends in G2.
    pose proof (ends_det _ _ _ _ G1 G2) as E0. congruence.
  Qed.
End Amb.

(** ** Adding rules *)
Section Add.
  Context {N T E : Type} (tix : T -> nat).
  Variables (s1 s2 : syntax N T E) (w : list T).
  Hypothesis Hincl : incl (sx_rules s1) (sx_rules s2).

  Lemma tree_map : (forall X t, twf tix (gram s1) w X t -> exists t', twf tix (gram s2) w X t' /\ leaves t' = leaves t /\ clean t' = clean t /\ ev (gens s2) w t' = ev (gens s1) w t) /\
    (forall l ts, twfs tix (gram s1) w l ts -> exists ts', twfs tix (gram s2) w l ts' /\ flat_map leaves ts' = flat_map leaves ts /\
        forallb clean ts' = forallb clean ts /\ gmap (ev (gens s2) w) ts' = gmap (ev (gens s1) w) ts).
  Proof.
    apply (twf_twfs_ind T tix (gram s1) w).
    - intros i x Hx. exists (Leaf i). split; [constructor; auto|auto].
    - intros lo hi H1 H2. exists (Bad lo hi). split; [constructor; auto|auto].
    - intros k r ts Hr Hts (ts' & I1 & I2 & I3 & I4). unfold gram in Hr. rewrite nth_error_map in Hr. destruct (nth_error (sx_rules s1) k) as [c|] eqn:Ec; [|discriminate].
      injection Hr as <-. apply nth_error_In in Ec as Hin. apply Hincl in Hin. apply In_nth_error in Hin as [k' Hk'].
      exists (Node k' ts'). split; [|split; [|split]].
      + constructor; auto. unfold gram. rewrite nth_error_map, Hk'. reflexivity.
      + simpl. auto.
      + simpl. auto.
      + cbn [ev]. rewrite I4. destruct (gmap (ev (gens s1) w) ts) as [args| |]; auto. cbn [gbind]. unfold call, gens. rewrite !nth_error_map, Hk', Ec. reflexivity.
    - exists []. split; [constructor|auto].
    - intros X l t ts _ (t' & I1 & I2 & I3 & I4) _ (ts' & J1 & J2 & J3 & J4). exists (t' :: ts'). split; [constructor; auto|]. cbn. rewrite I2, I3, I4, J2, J3, J4. auto.
  Qed.
  Lemma cyclic_add : sx_start s1 = sx_start s2 -> cyclic (gram s1) (sx_start s1) -> cyclic (gram s2) (sx_start s2).
  Proof.
    intros <- (r & H1 & H2 & H3). exists r.
    assert (Hi : incl (gram s1) (gram s2)). { intros r0 Hr. apply in_map_iff in Hr as (c & <- & Hc). apply in_map. auto. }
    split; auto. split; auto. clear - H3 Hi. induction H3 as [l|l1 r0 l2 l0 Hr H IH]; [constructor|]. apply rewr_step; auto.
  Qed.
End Add.
