(** * The tree that [parse] builds is the preferred one *)
From Coq Require Import List Arith Lia Bool Sorted.
From Verif Require Import Lib Grammar LrModel LrSpec LrSets LrStates LrNew LrTop LrMono ParseModel Trees ParseSpec ParseInv ParseComplete GramFacts ParseTerm ParseTop ParseMore ChoiceSpec.
Import ListNotations.

Section Choice.
  Context {N T E : Type} (tix : T -> nat).
  Variables (s : syntax N T E) (P : parser N T E) (ws : list warning) (ss : nat) (w : list T).
  Hypothesis Hm : made s P ws ss.
  Notation rules := (gram s).
  Notation start := (sx_start s).
  Notation rs := (augment rules start ss).
  Notation sr := (length rules).
  Notation invat := (inv_at tix rules start ss P w).
  Notation step := (parse_step tix P).
  Notation la := (la_at tix w).
  Notation lvs ts := (flat_map leaves ts).

  (** moves, each of which is allowed where it is made *)
  Inductive vrun : list sym -> list tree -> nat -> list move -> list sym -> list tree -> nat -> Prop :=
  | vr_nil g ts pos : vrun g ts pos [] g ts pos
  | vr_shift g ts pos x ms g' ts' pos' : nth_error w pos = Some x -> wants rs sr g (TM (TSym (tix x))) ->
      vrun (g ++ [TM (TSym (tix x))]) (ts ++ [Leaf pos]) (S pos) ms g' ts' pos' -> vrun g ts pos (Shift1 :: ms) g' ts' pos'
  | vr_reduce d ts1 ts2 pos k r ms g' ts' pos' : nth_error rules k = Some r -> length ts2 = length (r_rhs r) ->
      complete rs sr (d ++ r_rhs r) k (la pos) ->
      vrun (d ++ [NT (r_lhs r)]) (ts1 ++ [Node k ts2]) pos ms g' ts' pos' -> vrun (d ++ r_rhs r) (ts1 ++ ts2) pos (Reduce1 k :: ms) g' ts' pos'.

  Lemma vrun_app g ts pos m1 g1 ts1 pos1 : vrun g ts pos m1 g1 ts1 pos1 -> forall m2 g2 ts2 pos2, vrun g1 ts1 pos1 m2 g2 ts2 pos2 -> vrun g ts pos (m1 ++ m2) g2 ts2 pos2.
  Proof.
    induction 1 as [|g ts pos x ms g' ts' pos' Hx Hw _ IH|d tsa tsb pos k r ms g' ts' pos' Hr Hl Hc _ IH]; intros m2 g2 ts2 pos2 H; simpl; auto.
    - econstructor; eauto.
    - eapply vr_reduce; eauto.
  Qed.

  Lemma rule_new k r : nth_error rules k = Some r -> nth_error rs k = Some r /\ k <> sr.
  Proof.
    intros H. assert (k <> sr) by (intros ->; apply nth_error_Some_lt in H; lia). split; auto. rewrite augment_old; auto.
  Qed.

  Lemma twfs_length l tl : twfs tix rules w l tl -> length tl = length l.
  Proof. induction 1; simpl; auto. Qed.

  Lemma tree_moves :
    (forall X t, twf tix rules w X t -> clean t = true -> forall g ts pos k q b r,
       valid rs sr g (mk_item k q b) -> nth_error rs k = Some r -> nth_error (r_rhs r) q = Some X ->
       leaves t = seq pos (length (leaves t)) ->
       firsts rs (skipn (S q) (r_rhs r) ++ [TM b]) (la (pos + length (leaves t))) ->
       vrun g ts pos (moves t) (g ++ [X]) (ts ++ [t]) (pos + length (leaves t))) /\
    (forall l tl, twfs tix rules w l tl -> forallb clean tl = true -> forall g ts pos k q b r,
       valid rs sr g (mk_item k q b) -> nth_error rs k = Some r -> skipn q (r_rhs r) = l ->
       lvs tl = seq pos (length (lvs tl)) -> la (pos + length (lvs tl)) = b ->
       vrun g ts pos (flat_map moves tl) (g ++ l) (ts ++ tl) (pos + length (lvs tl))).
  Proof.
    apply (twf_twfs_ind T tix rules w).
    - intros i x Hx _ g ts pos k q b r Hv Hr HX Hl Hf. simpl in *. injection Hl as ->. rewrite Nat.add_1_r.
      eapply vr_shift; [exact Hx| |constructor]. exists k, q, b, r. auto.
    - discriminate.
    - intros k' r' tl Hr' Htw IH Hcl g ts pos k q b r Hv Hr HX Hl Hf. cbn [leaves moves] in *. cbn [clean] in Hcl.
      set (n := length (lvs tl)) in *. destruct (rule_new _ _ Hr') as [Hr2 Hk'].
      assert (Hv' : valid rs sr g (mk_item k' 0 (la (pos + n)))) by (eapply valid_closure; eauto).
      specialize (IH Hcl g ts pos k' 0 (la (pos + n)) r' Hv' Hr2 eq_refl Hl eq_refl).
      eapply vrun_app; [exact IH|]. eapply vr_reduce; [exact Hr'|apply twfs_length; auto| |constructor].
      exists r'. split; auto. 
      assert (G : forall m, m <= length (r_rhs r') -> valid rs sr (g ++ firstn m (r_rhs r')) (mk_item k' m (la (pos + n)))).
      { induction m as [|m IHm]; intros Hm'; [rewrite app_nil_r; auto|].
        destruct (nth_error (r_rhs r') m) as [Y|] eqn:EY; [|apply nth_error_None in EY; lia].
        assert (Ef : firstn (S m) (r_rhs r') = firstn m (r_rhs r') ++ [Y]).
        { clear - EY. revert m EY. induction (r_rhs r') as [|Z l IH]; intros [|m] EY; simpl in *; try discriminate; [congruence|]. f_equal. auto. }
        rewrite Ef, app_assoc. eapply valid_goto; eauto. apply IHm. lia. }
      specialize (G _ (le_n _)). rewrite firstn_all in G. exact G.
    - intros _ g ts pos k q b r Hv Hr Hl _ _. simpl. rewrite !app_nil_r, Nat.add_0_r. constructor.
    - intros X l t tl Ht IH1 Htl IH2 Hcl g ts pos k q b r Hv Hr Hl Hlv Hla.
      simpl in Hcl. apply andb_true_iff in Hcl as [Hc1 Hc2]. destruct (skipn_nth _ _ _ _ Hl) as [HX Hl'].
      cbn [flat_map] in Hlv, Hla |- *. destruct (seq_split_eq rules start ss P (md_len _ _ _ _ Hm) _ _ _ Hlv) as [Hlv1 Hlv2].
      rewrite app_length in Hla |- *. rewrite Nat.add_assoc in Hla |- *.
      assert (Hf : firsts rs (skipn (S q) (r_rhs r) ++ [TM b]) (la (pos + length (leaves t)))).
      { rewrite Hl'. pose proof (proj2 (tree_der tix rules w) _ _ Htl Hc2) as Hd.
        apply (proj2 (der_incl rules rs (aug_incl rules start ss))) in Hd. pose proof (ders_firsts rs l _ b Hd) as Hf.
        rewrite Hlv2 in Hf. destruct (length (lvs tl)) as [|m] eqn:Em; simpl in Hf.
        - rewrite Nat.add_0_r in Hla. rewrite Hla. exact Hf.
        - exact Hf. }
      specialize (IH1 Hc1 g ts pos k q b r Hv Hr HX Hlv1 Hf).
      assert (Hv1 : valid rs sr (g ++ [X]) (mk_item k (S q) b)) by (eapply valid_goto; eauto).
      specialize (IH2 Hc2 (g ++ [X]) (ts ++ [t]) _ k (S q) b r Hv1 Hr Hl' Hlv2 Hla).
      rewrite <- !app_assoc in IH2. cbn [app] in IH2. eapply vrun_app; [exact IH1|exact IH2].
  Qed.
  Lemma proper_moves t : proper_tree tix s w t -> vrun [] [] 0 (moves t) [NT start] [t] (length w).
  Proof.
    intros [[Ht Hl] Hc]. assert (Hn : length (leaves t) = length w) by (rewrite Hl, seq_length; auto).
    pose proof (proj1 tree_moves _ _ Ht Hc [] [] 0 sr 0 TEoi _ (valid_start rs sr) (augment_start rules start ss) eq_refl) as R.
    rewrite Hn in R. specialize (R Hl). simpl in R. apply R.
    unfold la_at. rewrite (proj2 (nth_error_None _ _)) by auto. exists []. constructor.
  Qed.
  (** a successful run without syntax errors ends with a tree that is preferred to all others that can be reached *)
  Lemma choice_from : forall fuel st g ts pos v it, invat st g ts pos -> forallb clean ts = true -> lvs ts = seq 0 pos ->
    loop step fuel st = Ok (ROk v, it) -> error_free s \/ errors tix P fuel st = [] ->
    exists t z, twf tix rs w (NT start) t /\ leaves t = seq 0 (length w) /\ clean t = true /\ ev (pr_gens P) w t = GOk (NonTerminal v) /\
      moves t = flat_map moves ts ++ z /\
      forall rest t', vrun g ts pos rest [NT start] [t'] (length w) -> t' = t \/ better z rest \/ exists x b, rest = z ++ x :: b.
  Proof.
    induction fuel as [|fuel IH]; intros st g ts pos v it Hinv Hcl Hlv Hl He; [discriminate|]. simpl in Hl. cbn [errors] in He.
    destruct (cases tix s P ws ss w Hm _ _ _ _ Hinv) as (d & Hd & Hc). pose proof (err_spec tix s P ws ss w Hm _ _ _ _ _ Hinv Hd) as Hes.
    assert (He' : forall st', step st = inl st' -> error_free s \/ errors tix P fuel st' = []).
    { intros st' Hs. destruct He as [He|He]; [auto|right]. rewrite Hs in He. apply app_eq_nil in He. tauto. }
    destruct d as [[q|k|]|]; cbn [step_case] in Hc.
    - destruct Hc as (_ & Hlt & s' & Hs & Hi). rewrite Hs in Hl.
      destruct (nth_error w pos) as [x|] eqn:Ex; [|apply nth_error_None in Ex; lia].
      assert (C1 : forallb clean (ts ++ [Leaf pos]) = true) by (rewrite forallb_app, Hcl; reflexivity).
      assert (C2 : lvs (ts ++ [Leaf pos]) = seq 0 (S pos)) by (rewrite flat_map_app, Hlv; simpl; rewrite <- seq_S; reflexivity).
      destruct (IH _ _ _ _ v it Hi C1 C2 Hl (He' _ Hs)) as (t & z & H1 & H2 & H3 & H4 & H5 & H6).
      exists t, (Shift1 :: z). split; auto. split; auto. split; auto. split; auto. split.
      { rewrite H5, flat_map_app, <- app_assoc. reflexivity. }
      intros rest t' Hr. inversion Hr as [|g0 ts0 pos0 y ms g1 ts1 pos1 Hy Hw Hv|d0 tsa tsb pos0 k0 r0 ms g1 ts1 pos1 Hr0 Hle Hcm Hv]; subst.
      + lia.
      + rewrite Ex in Hy. injection Hy as <-. unfold la_at in H6. rewrite Ex in H6. destruct (H6 _ _ Hv) as [->|[H|(x' & b & ->)]]; [auto|right; left; apply better_later; auto|right; right; exists x', b; auto].
      + right. left. constructor.
    - destruct Hd as (Hnw & Hna & Hk & Hcomp & Hmin).
      destruct Hc as [(r & _ & _ & Hs & _)|(r & dd & ts1 & ts2 & args & gen & Hr & Eg & _ & _ & Ets & Hlen & Htw & Ha & Hg & Hc)].
      { rewrite Hs in Hl. discriminate. }
      destruct (gen args) as [u|e|].
      2:{ destruct Hc as (it' & Hs). rewrite Hs in Hl. discriminate. }
      2:{ rewrite Hc in Hl. discriminate. }
      destruct Hc as (s' & Hs & Hi). rewrite Hs in Hl. subst g ts. rewrite forallb_app in Hcl.
      assert (C1 : forallb clean (ts1 ++ [Node k ts2]) = true) by (rewrite forallb_app; simpl; rewrite andb_true_r; exact Hcl).
      assert (C2 : lvs (ts1 ++ [Node k ts2]) = seq 0 pos) by (rewrite flat_map_app in Hlv |- *; simpl; rewrite app_nil_r; exact Hlv).
      destruct (IH _ _ _ _ v it Hi C1 C2 Hl (He' _ Hs)) as (t & z & H1 & H2 & H3 & H4 & H5 & H6).
      exists t, (Reduce1 k :: z). split; auto. split; auto. split; auto. split; auto. split.
      { rewrite H5, !flat_map_app. simpl. rewrite app_nil_r, <- !app_assoc. reflexivity. }
      intros rest t' Hv0. remember (dd ++ r_rhs r) as g0 eqn:Eg. remember (ts1 ++ ts2) as ts0 eqn:Ets. remember [NT start] as gf eqn:Egf. remember [t'] as tsf eqn:Etf. remember (length w) as n eqn:En.
      destruct Hv0 as [g0 ts0 pos|g0 ts0 pos y ms g' ts' pos' Hy Hw Hv|d0 tsa tsb pos k' r' ms g' ts' pos' Hr' Hle Hcm Hv].
      + exfalso. apply Hna. split; [unfold la_at; rewrite (proj2 (nth_error_None _ _)); auto; lia|]. rewrite Egf. apply accepting_start.
      + exfalso. apply Hnw. unfold la_at. rewrite Hy. exact Hw.
      + destruct (rule_new _ _ Hr') as [Hr2 Hk'].
        destruct (Nat.eq_dec k k') as [<-|Hne].
        * assert (r' = r) by congruence. subst r'. apply app_inv_tail in Eg. subst d0.
          assert (Els : tsa = ts1 /\ tsb = ts2).
          { assert (L2 : length ts2 = length (r_rhs r)) by (clear - Htw; induction Htw; simpl; auto).
            assert (L : length tsa = length ts1) by (apply (f_equal (@length _)) in Ets; rewrite !app_length in Ets; lia).
            clear - Ets L. revert ts1 Ets L. induction tsa as [|y tsa IH]; intros [|z ts1] C4 H; simpl in *; try discriminate; [split; congruence|].
            injection C4 as C0 C4. destruct (IH ts1 C4 ltac:(lia)) as [A B]. split; congruence. }
          destruct Els as [-> ->]. subst g' ts' pos'. destruct (H6 _ _ Hv) as [->|[H|(x' & b & ->)]]; [auto|right; left; apply better_later; auto|right; right; exists x', b; auto].
        * right. left. apply better_rule. specialize (Hmin k' Hk' Hcm). lia.
    - destruct Hc as (_ & Hp & -> & t & v' & -> & Hev & Hs). rewrite Hs in Hl. injection Hl as -> <-.
      exists t, []. assert (Htw : twfs tix rs w [NT start] [t]).
      { refine (inv_twfs _ _ _ _ _ _ _ _ _ _ _ _ Hinv); [apply (md_len _ _ _ _ Hm)|]. right. simpl. intros [H|[]]; discriminate. }
      inversion Htw; subst. simpl in Hcl, Hlv. rewrite app_nil_r in Hlv. rewrite andb_true_r in Hcl. split; auto. split; [auto|]. split; auto. split; auto. split; [simpl; rewrite !app_nil_r; reflexivity|].
      intros rest t' Hv. inversion Hv; subst; [auto| |].
      + exfalso. assert (length w < length w) by (eapply nth_error_Some_lt; eauto). lia.
      + right. right. eexists _, _. reflexivity.
    - rewrite Hes in He. destruct He as [He|He]; [|discriminate]. destruct Hc as (_ & [(it' & Hs & _)|(s' & _ & Hx & _)]); [rewrite Hs in Hl; discriminate|].
      exfalso. apply Hx. apply errfree_noerr; auto.
  Qed.

  Lemma choice_top fuel v : parse tix P fuel w = Ok (ROk v) -> error_free s \/ parse_errors tix P fuel w = [] ->
    exists t, proper_tree tix s w t /\ ev (gens s) w t = GOk (NonTerminal v) /\ forall t', proper_tree tix s w t' -> t' = t \/ preferred (moves t) (moves t').
  Proof.
    intros Hp He. unfold parse in Hp. destruct (parse_full tix P fuel w) as [[o it]| |] eqn:Ef; try discriminate. injection Hp as ->.
    destruct (choice_from fuel _ [] [] 0 v it (at_init tix s P ss w) eq_refl eq_refl Ef He) as (t & z & H1 & H2 & H3 & H4 & H5 & H6).
    apply (twf_aug tix _ _ _ w (md_fresh _ _ _ _ Hm)) in H1. exists t. split; [split; [split|]; auto|]. split; [rewrite <- (ev_made tix s P ws ss w Hm _ _ H1); auto|].
    intros t' Ht'. simpl in H5. destruct (H6 _ _ (proper_moves t' Ht')) as [H|[H|(x & b & H)]]; [auto|right; rewrite H5; apply pref_better; auto|right; rewrite H, H5; apply pref_done].
  Qed.
End Choice.

(** ** Orders of moves *)
Lemma better_ctx p a b x y : better a b -> better (p ++ a ++ x) (p ++ b ++ y).
Proof.
  intros H. induction p as [|m p IH]; simpl; [|apply better_later; auto]. induction H; simpl; [apply better_shift|apply better_rule; auto|apply better_later; auto].
Qed.
Lemma better_not a b : better a b -> ~ preferred b a.
Proof.
  intros H Hp. assert (G : forall a b, better a b -> ~ better b a /\ forall x z, a <> b ++ x :: z).
  { clear. induction 1 as [k a b|k k' a b Hk|x a b H [IH1 IH2]]; split.
    - intros H. inversion H.
    - discriminate.
    - intros H. inversion H; subst; lia.
    - intros x z H. injection H as H _. lia.
    - intros H1. inversion H1; subst; [lia|auto].
    - intros y z H1. injection H1 as H1. eapply IH2; eauto. }
  destruct (G a b H) as [G1 G2]. inversion Hp; subst; auto. eapply G2; eauto.
Qed.
Lemma better_irr a : ~ better a a.
Proof. intros H. apply (better_not a a H). constructor. auto. Qed.

(** ** Replacing a part of a tree *)
Section Replace.
  Context {T : Type} (tix : T -> nat) (G : list rule) (w : list T) (u u' : tree).
  Hypothesis Ht : forall X, twf tix G w X u -> twf tix G w X u'.
  Hypothesis Hl : leaves u' = leaves u.
  Hypothesis Hc : clean u' = clean u.
  Hypothesis Hb : better (moves u') (moves u).

  Lemma twfs_put t t' l1 l2 : (forall X, twf tix G w X t -> twf tix G w X t') -> forall l, twfs tix G w l (l1 ++ t :: l2) -> twfs tix G w l (l1 ++ t' :: l2).
  Proof. intros H. induction l1 as [|t1 l1 IH]; intros l Hw; simpl in *; inversion Hw; subst; constructor; auto. Qed.

  Lemma replaced_ok t t' : replaced u u' t t' -> (forall X, twf tix G w X t -> twf tix G w X t') /\ leaves t' = leaves t /\ clean t' = clean t /\
    exists p x y a b, moves t' = p ++ a ++ x /\ moves t = p ++ b ++ y /\ better a b.
  Proof.
    induction 1 as [|k l1 t t' l2 _ (IH1 & IH2 & IH3 & p & x & y & a & b & IH4 & IH5 & IH6)].
    - split; auto. split; auto. split; auto. exists [], [], [], (moves u'), (moves u). simpl. rewrite !app_nil_r. auto.
    - split; [|split; [|split]].
      + intros X H. inversion H; subst. econstructor; eauto. eapply twfs_put; eauto.
      + simpl. rewrite !flat_map_app. simpl. rewrite IH2. auto.
      + simpl. rewrite !forallb_app. simpl. rewrite IH3. auto.
      + exists (flat_map moves l1 ++ p), (x ++ flat_map moves l2 ++ [Reduce1 k]), (y ++ flat_map moves l2 ++ [Reduce1 k]), a, b.
        cbn [moves]. rewrite !flat_map_app. cbn [flat_map]. rewrite IH4, IH5, <- !app_assoc. auto.
  Qed.
  Lemma occurs_replaced t : occurs u t -> exists t', replaced u u' t t'.
  Proof. induction 1 as [|k l1 t l2 _ [t' IH]]; eexists; [apply rep_here|apply rep_in; eauto]. Qed.
End Replace.

Lemma occurs_not {N T E} (tix : T -> nat) (s : syntax N T E) w t u u' : proper_tree tix s w t ->
  (forall t', proper_tree tix s w t' -> t' = t \/ preferred (moves t) (moves t')) ->
  (forall X, twf tix (gram s) w X u -> twf tix (gram s) w X u') -> leaves u' = leaves u -> clean u' = clean u -> better (moves u') (moves u) -> ~ occurs u t.
Proof.
  intros [[H1 H2] H3] Hp Ht Hl Hc Hb Ho. destruct (occurs_replaced u u' t Ho) as [t' Hr].
  destruct (replaced_ok tix (gram s) w u u' Ht Hl Hc Hb t t' Hr) as (A1 & A2 & A3 & p & x & y & a & b & A4 & A5 & A6).
  assert (B : better (moves t') (moves t)) by (rewrite A4, A5; apply better_ctx; auto).
  destruct (Hp t') as [->|H].
  - split; [split; [auto|congruence]|congruence].
  - exact (better_irr _ B).
  - exact (better_not _ _ B H).
Qed.
