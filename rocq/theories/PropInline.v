(** * Property C81: a helper nonterminal can be replaced by its right-hand sides *)
From Coq Require Import List Arith Lia Bool Permutation Sorted ZArith.
From Verif Require Import Lib Grammar LrModel LrSpec LrSets LrNew LrTop ParseModel Trees ParseSpec GramFacts ParseInv ParseComplete ParseTop ParseMore ParseExamples PropParse PropLr PropRecover ProdCheck StmtSpec PropStmt ValueProofs PropOp PropNest InlineSpec.
Import ListNotations.

Section Values.
  Context {N T E : Type} (tix : T -> nat) (base : list (crule N T E)).
  Lemma values_cat l1 : forall u1 a1 l2 u2 a2, values tix base l1 u1 a1 -> values tix base l2 u2 a2 -> values tix base (l1 ++ l2) (u1 ++ u2) (a1 ++ a2).
  Proof. induction l1 as [|Y l1 IH]; intros * H1 H2; inversion H1; subst; simpl; auto. rewrite <- app_assoc. constructor; auto. Qed.
  Lemma values_split l1 : forall l2 u a, values tix base (l1 ++ l2) u a -> exists u1 u2 a1 a2, u = u1 ++ u2 /\ a = a1 ++ a2 /\ length a1 = length l1 /\ values tix base l1 u1 a1 /\ values tix base l2 u2 a2.
  Proof.
    induction l1 as [|Y l1 IH]; simpl; intros l2 u a H.
    - exists [], u, [], a. repeat split; auto. constructor.
    - inversion H as [|? ? v v' b args Hv Hvs]; subst. destruct (IH _ _ _ Hvs) as (u1 & u2 & a1 & a2 & -> & -> & Hl & H1 & H2).
      exists (v ++ u1), u2, (b :: a1), a2. rewrite app_assoc. repeat split; simpl; auto. constructor; auto.
  Qed.
  Lemma values_length l u a : values tix base l u a -> length a = length l.
  Proof. revert u a. induction l; intros u args H; inversion H; subst; simpl; eauto. Qed.
End Values.

Lemma nth_cut {A} (l : list A) k x : nth_error l k = Some x -> l = firstn k l ++ x :: skipn (S k) l.
Proof. revert l. induction k as [|k IH]; intros [|y l] H; simpl in *; try discriminate; [congruence|]. f_equal. apply IH. auto. Qed.
Lemma Forall2_length {A B} (R : A -> B -> Prop) l l' : Forall2 R l l' -> length l = length l'.
Proof. induction 1; simpl; auto. Qed.
Lemma Forall2_r {A B} (R : A -> B -> Prop) l l' : Forall2 R l l' -> forall y, In y l' -> exists x, In x l /\ R x y.
Proof. induction 1 as [|? ? ? ? H1 H2 IH]; simpl; [tauto|]. intros z [<-|Hz]; eauto. destruct (IH z Hz) as (w & ? & ?). eauto. Qed.
Lemma Forall2_l {A B} (R : A -> B -> Prop) l l' : Forall2 R l l' -> forall x, In x l -> exists y, In y l' /\ R x y.
Proof. induction 1 as [|? ? ? ? H1 H2 IH]; simpl; [tauto|]. intros z [<-|Hz]; eauto. destruct (IH z Hz) as (w & ? & ?). eauto. Qed.

Lemma app_len_inj {A} (a b c d : list A) : a ++ b = c ++ d -> length a = length c -> a = c /\ b = d.
Proof. revert c. induction a as [|x a IH]; intros [|y c] H1 H2; simpl in *; try discriminate; auto. injection H1 as <- H1. destruct (IH c H1) as [-> ->]; auto. Qed.
Lemma sorted_end a : forall c : list nat, StronglySorted Nat.lt (a ++ c) -> StronglySorted Nat.lt c.
Proof. induction a; simpl; auto. intros c H. inversion H; auto. Qed.
Lemma sorted_cut b : forall a c : list nat, StronglySorted Nat.lt (a ++ b ++ c) -> StronglySorted Nat.lt (a ++ c).
Proof.
  induction a as [|x a IH]; simpl; intros c H; [eapply sorted_end; eauto|]. inversion H as [|? ? H1 H2]; subst. constructor; auto.
  rewrite !Forall_app in *. tauto.
Qed.
Lemma sorted_begin a : forall c : list nat, StronglySorted Nat.lt (a ++ c) -> StronglySorted Nat.lt a.
Proof. intros c H. rewrite <- (app_nil_r c) in H. rewrite <- (app_nil_r a). eapply sorted_cut; eauto. Qed.

Section Inl.
  Context {N T E : Type} (tix : T -> nat) (s s' : syntax N T E).
  Variables (l1 l2 news : list (crule N T E)) (r : crule N T E) (k A : nat).
  Hypothesis (Hs : sx_rules s = l1 ++ r :: l2) (Hk : nth_error (r_rhs (cr_rule r)) k = Some (NT A)).
  Hypothesis Hn : Forall2 (inlines r k) (filter (fun c => r_lhs (cr_rule c) =? A) (sx_rules s)) news.
  Hypothesis (Hs' : sx_rules s' = l1 ++ news ++ l2) (Hst : sx_start s' = sx_start s).
  Notation be := (firstn k (r_rhs (cr_rule r))).
  Notation af := (skipn (S k) (r_rhs (cr_rule r))).
  Lemma inl_rhs : r_rhs (cr_rule r) = be ++ NT A :: af.
  Proof. apply nth_cut. auto. Qed.
  Lemma inl_r : In r (sx_rules s).
  Proof. rewrite Hs. apply in_or_app. simpl. auto. Qed.
  Lemma inl_old c : In c (sx_rules s) -> c = r \/ In c (sx_rules s').
  Proof. rewrite Hs, Hs', !in_app_iff. simpl. intros [H|[H|H]]; auto. Qed.
  Lemma inl_new c' : In c' (sx_rules s') -> In c' (sx_rules s) \/ exists c, In c (sx_rules s) /\ r_lhs (cr_rule c) = A /\ inlines r k c c'.
  Proof.
    rewrite Hs', !in_app_iff. intros [H|[H|H]].
    - left. rewrite Hs, in_app_iff. auto.
    - right. destruct (Forall2_r _ _ _ Hn c' H) as (c & Hc & Hi). apply filter_In in Hc as [Hc E0]. apply Nat.eqb_eq in E0. eauto.
    - left. rewrite Hs, in_app_iff. simpl. auto.
  Qed.
  Lemma inl_made c : In c (sx_rules s) -> r_lhs (cr_rule c) = A -> exists c', In c' (sx_rules s') /\ inlines r k c c'.
  Proof.
    intros Hc E0. destruct (Forall2_l _ _ _ Hn c) as (c' & H1 & H2). { apply filter_In. split; auto. apply Nat.eqb_eq. auto. }
    exists c'. split; auto. rewrite Hs', !in_app_iff. auto.
  Qed.
  Lemma be_length : length be = k.
  Proof. apply firstn_length_le. apply Nat.lt_le_incl, nth_error_Some. congruence. Qed.

  (** old to new: a value comes with a way to find it whose parts are found in the new syntax *)
  Definition found (Y : sym) (u : list T) (a : arg N T) : Prop :=
    value tix (sx_rules s') Y u a /\ forall B, Y = NT B -> exists c args v, In c (sx_rules s) /\ r_lhs (cr_rule c) = B /\ values tix (sx_rules s') (r_rhs (cr_rule c)) u args /\ cr_gen c args = GOk v /\ a = NonTerminal v.
  Inductive founds : list sym -> list T -> list (arg N T) -> Prop :=
  | founds_nil : founds [] [] []
  | founds_cons Y l u u' a args : found Y u a -> founds l u' args -> founds (Y :: l) (u ++ u') (a :: args).
  Lemma founds_values l u a : founds l u a -> values tix (sx_rules s') l u a.
  Proof. induction 1 as [|? ? ? ? ? ? [H _]]; constructor; auto. Qed.
  Lemma founds_split m : forall l u a, founds (m ++ l) u a -> exists u1 u2 a1 a2, u = u1 ++ u2 /\ a = a1 ++ a2 /\ length a1 = length m /\ founds m u1 a1 /\ founds l u2 a2.
  Proof.
    induction m as [|Y m IH]; simpl; intros l u a H.
    - exists [], u, [], a. repeat split; auto. constructor.
    - inversion H as [|? ? v v' b args Hv Hvs]; subst. destruct (IH _ _ _ Hvs) as (u1 & u2 & a1 & a2 & -> & -> & Hl & H1 & H2).
      exists (v ++ u1), u2, (b :: a1), a2. rewrite app_assoc. repeat split; simpl; auto. constructor; auto.
  Qed.
  Lemma inl_found : (forall Y u a, value tix (sx_rules s) Y u a -> found Y u a) /\ (forall l u args, values tix (sx_rules s) l u args -> founds l u args).
  Proof.
    apply value_values_ind.
    - intros x. split; [constructor|discriminate].
    - intros c u args v Hc _ IH Hg. split.
      + destruct (inl_old c Hc) as [->|Hc']; [|econstructor; eauto using founds_values].
        rewrite inl_rhs in IH. destruct (founds_split _ _ _ _ IH) as (u1 & u2 & a1 & a2 & -> & -> & Hl & H1 & H2).
        inversion H2 as [|? ? w w' b args [_ Hw] Hws]; subst. destruct (Hw A eq_refl) as (c & ca & cv & Hcs & Ec & Hca & Hcg & ->).
        destruct (inl_made c Hcs Ec) as (c' & Hc' & Er & Eg). pose proof be_length as Hb.
        assert (El : r_lhs (cr_rule r) = r_lhs (cr_rule c')) by (rewrite Er; reflexivity). rewrite El.
        apply (value_rule tix _ c' _ (a1 ++ ca ++ args)); auto.
        * rewrite Er. simpl. apply values_cat; [apply founds_values; auto|]. apply values_cat; auto. apply founds_values. auto.
        * rewrite Eg; [|lia|eapply values_length; eauto]. rewrite Hcg. exact Hg.
      + intros B EB. injection EB as <-. exists c, args, v. repeat split; auto. apply founds_values. auto.
    - constructor.
    - intros. constructor; auto.
  Qed.
  (** new to old *)
  Lemma inl_back : (forall Y u a, value tix (sx_rules s') Y u a -> value tix (sx_rules s) Y u a) /\ (forall l u args, values tix (sx_rules s') l u args -> values tix (sx_rules s) l u args).
  Proof.
    apply value_values_ind; try (intros; econstructor; eauto; fail).
    intros c' u args v Hc' _ IH Hg. destruct (inl_new c' Hc') as [Hc|(c & Hc & Ec & Er & Eg)]; [econstructor; eauto|].
    rewrite Er in IH |- *. simpl in IH |- *. apply values_split in IH as (u1 & u2 & a1 & a2 & -> & -> & Hl1 & H1 & H2).
    apply values_split in H2 as (u3 & u4 & a3 & a4 & -> & -> & Hl2 & H3 & H4). rewrite be_length in Hl1.
    rewrite (Eg a1 a3 a4 Hl1 Hl2) in Hg. destruct (cr_gen c a3) as [cv|x|] eqn:Hcg; try discriminate.
    apply (value_rule tix _ r _ (a1 ++ NonTerminal cv :: a4)); auto using inl_r.
    rewrite inl_rhs. apply values_cat; auto. constructor; auto. rewrite <- Ec. econstructor; eauto.
  Qed.
  Lemma inl_value Y u a : value tix (sx_rules s) Y u a <-> value tix (sx_rules s') Y u a.
  Proof. split; [intros H; apply inl_found in H; apply H|apply inl_back]. Qed.

  Lemma inl_free : error_free s -> error_free s'.
  Proof.
    intros H q Hq Hi. unfold gram in *. apply in_map_iff in Hq as (c' & <- & Hc'). destruct (inl_new c' Hc') as [Hc|(c & Hc & _ & Er & _)].
    - apply (H (cr_rule c')); [apply in_map|]; auto.
    - rewrite Er in Hi. simpl in Hi. rewrite !in_app_iff in Hi. destruct Hi as [Hi|[Hi|Hi]].
      + apply (H (cr_rule r)); [apply in_map, inl_r|]. rewrite inl_rhs, in_app_iff. auto.
      + apply (H (cr_rule c)); [apply in_map|]; auto.
      + apply (H (cr_rule r)); [apply in_map, inl_r|]. rewrite inl_rhs, in_app_iff. simpl. auto.
  Qed.

  (** ** the languages *)
  Definition fder (Y : sym) (w : list term) : Prop :=
    der (gram s') Y w /\ forall B, Y = NT B -> exists c, In c (sx_rules s) /\ r_lhs (cr_rule c) = B /\ ders (gram s') (r_rhs (cr_rule c)) w.
  Inductive fders : list sym -> list term -> Prop :=
  | fders_nil : fders [] []
  | fders_cons Y l u v : fder Y u -> fders l v -> fders (Y :: l) (u ++ v).
  Lemma fders_ders l u : fders l u -> ders (gram s') l u.
  Proof. induction 1 as [|? ? ? ? [H _]]; constructor; auto. Qed.
  Lemma fders_split m : forall l u, fders (m ++ l) u -> exists u1 u2, u = u1 ++ u2 /\ fders m u1 /\ fders l u2.
  Proof.
    induction m as [|Y m IH]; simpl; intros l u H.
    - exists [], u. repeat split; auto. constructor.
    - inversion H as [|? ? v v' Hv Hvs]; subst. destruct (IH _ _ Hvs) as (u1 & u2 & -> & H1 & H2).
      exists (v ++ u1), u2. rewrite app_assoc. repeat split; auto. constructor; auto.
  Qed.
  Lemma inl_fder : (forall Y w, der (gram s) Y w -> fder Y w) /\ (forall l w, ders (gram s) l w -> fders l w).
  Proof.
    apply der_ders_ind.
    - intros t. split; [constructor|discriminate].
    - intros q w Hq _ IH. unfold gram in Hq. apply in_map_iff in Hq as (c & <- & Hc). split.
      + destruct (inl_old c Hc) as [->|Hc']; [|constructor; [apply in_map; auto|apply fders_ders; auto]].
        rewrite inl_rhs in IH. destruct (fders_split _ _ _ IH) as (u1 & u2 & -> & H1 & H2).
        inversion H2 as [|? ? v v' [_ Hv] Hvs]; subst. destruct (Hv A eq_refl) as (c & Hcs & Ec & Hca).
        destruct (inl_made c Hcs Ec) as (c' & Hc' & Er & _).
        assert (El : r_lhs (cr_rule r) = r_lhs (cr_rule c')) by (rewrite Er; reflexivity). rewrite El. constructor; [apply in_map; auto|].
        rewrite Er. simpl. apply ders_app; [apply fders_ders; auto|]. apply ders_app; auto. apply fders_ders. auto.
      + intros B EB. injection EB as <-. exists c. repeat split; auto. apply fders_ders. auto.
    - constructor.
    - intros. constructor; auto.
  Qed.
  Lemma inl_der Y w : der (gram s) Y w -> der (gram s') Y w.
  Proof. intros H. apply inl_fder in H. apply H. Qed.
  Lemma inl_productive : productive (gram s) -> productive (gram s').
  Proof.
    intros Hp q Y Hq HY. unfold gram in Hq. apply in_map_iff in Hq as (c' & <- & Hc'). destruct (inl_new c' Hc') as [Hc|(c & Hc & _ & Er & _)].
    - destruct (Hp (cr_rule c') Y) as [w Hw]; [apply in_map| |exists w; apply inl_der]; auto.
    - rewrite Er in HY. simpl in HY. rewrite !in_app_iff in HY. destruct HY as [HY|[HY|HY]].
      + destruct (Hp (cr_rule r) Y) as [w Hw]; [apply in_map, inl_r|rewrite inl_rhs, in_app_iff; auto|exists w; apply inl_der; auto].
      + destruct (Hp (cr_rule c) Y) as [w Hw]; [apply in_map| |exists w; apply inl_der]; auto.
      + destruct (Hp (cr_rule r) Y) as [w Hw]; [apply in_map, inl_r|rewrite inl_rhs, in_app_iff; simpl; auto|exists w; apply inl_der; auto].
  Qed.
  Lemma inl_rewr l m : rewr (gram s') l m -> rewr (gram s) l m.
  Proof.
    induction 1 as [|a q b m Hq _ IH]; [constructor|]. unfold gram in Hq. apply in_map_iff in Hq as (c' & <- & Hc').
    destruct (inl_new c' Hc') as [Hc|(c & Hc & Ec & Er & _)]; [apply rewr_step; auto; apply in_map; auto|].
    rewrite Er in *. simpl in *. apply rewr_step; [apply in_map, inl_r|]. rewrite inl_rhs, <- app_assoc, app_assoc. simpl. rewrite <- Ec.
    apply rewr_step; [apply in_map; auto|]. rewrite <- !app_assoc in *. exact IH.
  Qed.
  Lemma inl_cyclic B : cyclic (gram s') B -> cyclic (gram s) B.
  Proof.
    intros (q & Hq & <- & H). apply inl_rewr in H. unfold gram in Hq. apply in_map_iff in Hq as (c' & <- & Hc').
    destruct (inl_new c' Hc') as [Hc|(c & Hc & Ec & Er & _)]; [exists (cr_rule c'); repeat split; auto; apply in_map; auto|].
    rewrite Er in *. simpl in *. exists (cr_rule r). split; [apply in_map, inl_r|]. split; auto. rewrite inl_rhs at 1. rewrite <- Ec. apply rewr_step; [apply in_map|]; auto.
  Qed.

  (** ** the reducers succeed *)
  Lemma good_part w l1' l2' l3' (a1 a2 a3 : list (arg N T)) : good_args tix w (l1' ++ l2' ++ l3') (a1 ++ a2 ++ a3) -> length a1 = length l1' -> length a2 = length l2' ->
    good_args tix w l2' a2 /\ forall B v, good_args tix w (l1' ++ NT B :: l3') (a1 ++ NonTerminal v :: a3).
  Proof.
    intros (Hf & (ps & Hso & Hps) & He) E1 E2.
    apply Forall2_app_inv_l in Hf as (b1 & b2 & F1 & F2 & Eb). apply app_len_inj in Eb as [<- <-]; [|apply Forall2_length in F1; lia].
    apply Forall2_app_inv_l in F2 as (b3 & b4 & F2 & F3 & Eb). apply app_len_inj in Eb as [<- <-]; [|apply Forall2_length in F2; lia].
    unfold terminals in Hps. rewrite !flat_map_app in Hps. apply Forall2_app_inv_r in Hps as (p1 & p2 & P1 & P2 & ->). apply Forall2_app_inv_r in P2 as (p3 & p4 & P3 & P4 & ->).
    split.
    - split; auto. split; [exists p3; split; auto; eapply sorted_begin, sorted_end; eauto|]. intros sl Hsl. apply He. rewrite !in_app_iff. auto.
    - intros B v. split; [apply Forall2_app; auto; constructor; simpl; auto|]. split.
      + exists (p1 ++ p4). split; [eapply sorted_cut; eauto|]. unfold terminals. rewrite flat_map_app. apply Forall2_app; auto.
      + intros sl Hsl. apply He. rewrite !in_app_iff in *. simpl in Hsl. destruct Hsl as [Hsl|[Hsl|Hsl]]; auto. discriminate.
  Qed.
  Lemma nth_before {X} (a b : list X) j x : nth_error a j = Some x -> nth_error (a ++ b) j = Some x.
  Proof. intros H. rewrite nth_error_app1; auto. apply nth_error_Some. congruence. Qed.
  Lemma nth_after {X} (a b : list X) j : nth_error (a ++ b) (length a + j) = nth_error b j.
  Proof. rewrite nth_error_app2 by lia. f_equal. lia. Qed.
  Lemma typed_app ty (m1 m2 : list sym) (b1 b2 : list (arg N T)) : length b1 = length m1 -> (typed ty (m1 ++ m2) (b1 ++ b2) <-> typed ty m1 b1 /\ typed ty m2 b2).
  Proof.
    intros E0. split.
    - intros H. split; intros j B v H1 H2.
      + apply (H j); apply nth_before; auto.
      + apply (H (length m1 + j)); [rewrite nth_after; auto|]. rewrite <- E0, nth_after. auto.
    - intros [Ha Hb] j B v H1 H2. destruct (lt_dec j (length m1)) as [Hj|Hj].
      + rewrite nth_error_app1 in H1, H2 by lia. eapply Ha; eauto.
      + rewrite nth_error_app2 in H1, H2 by lia. rewrite E0 in H2. eapply Hb; eauto.
  Qed.
  Lemma inl_total w : total_on tix s w -> total_on tix s' w.
  Proof.
    intros [ty Ht]. exists ty. intros c' args Hc' Hg Hty. destruct (inl_new c' Hc') as [Hc|(c & Hc & Ec & Er & Eg)]; [apply Ht; auto|].
    rewrite Er in *. simpl in *. pose proof (Forall2_length _ _ _ (proj1 Hg)) as Hlen. rewrite !app_length, be_length in Hlen.
    set (n := length (r_rhs (cr_rule c))) in *.
    assert (Ea : args = firstn k args ++ firstn n (skipn k args) ++ skipn n (skipn k args)) by (rewrite !firstn_skipn; auto).
    assert (L1 : length (firstn k args) = k) by (apply firstn_length_le; lia).
    assert (L2 : length (firstn n (skipn k args)) = n) by (apply firstn_length_le; rewrite skipn_length; lia).
    revert Ea L1 L2. generalize (firstn k args) as a1, (firstn n (skipn k args)) as a2, (skipn n (skipn k args)) as a3. intros a1 a2 a3 -> L1 L2.
    destruct (good_part _ _ _ _ _ _ _ Hg) as [G1 G2]; [rewrite be_length; auto|auto|].
    apply typed_app in Hty as [T1 T2]; [|rewrite be_length; auto]. apply typed_app in T2 as [T2 T3]; [|auto].
    destruct (Ht c a2 Hc G1 T2) as (cv & Hcv & Tcv). rewrite (Eg a1 a2 a3 L1 L2), Hcv.
    apply (Ht r); [apply inl_r| |].
    - rewrite inl_rhs. apply G2.
    - rewrite inl_rhs. apply typed_app; [rewrite be_length; auto|]. split; auto. intros [|j] B v H1 H2; simpl in *; [|eapply T3; eauto].
      injection H1 as <-. injection H2 as <-. rewrite Ec in Tcv. auto.
  Qed.
End Inl.

Theorem C81_inline : forall N T E (nix : N -> nat) (tix : T -> nat) e e' (s s' : syntax N T E) P P',
  api_syntax nix tix s -> makes e s P [] -> api_syntax nix tix s' -> makes e' s' P' [] -> error_free s -> ~ cyclic (gram s) (sx_start s) -> inlined s s' ->
  forall w v, returns tix P w (ROk v) <-> returns tix P' w (ROk v).
Proof.
  intros N T E nix tix e e' s s' P P' Ha Hm Ha' Hm' Hf Hc (l1 & r & l2 & k & A & news & Hs & Hk & Hn & Hs' & Hst) w v.
  rewrite (C25_value N T E nix tix e s P w v Ha Hm Hf Hc).
  rewrite (C25_value N T E nix tix e' s' P' w v Ha' Hm' (inl_free s s' l1 l2 news r k A Hs Hk Hn Hs' Hf)).
  - rewrite Hst. eapply inl_value; eauto.
  - rewrite Hst. intros H. apply Hc. eapply inl_cyclic; eauto.
Qed.
Print Assumptions C81_inline.

(** where the reducers do not fail, the two parsers agree on every input *)
Theorem C81_all : forall N T E (nix : N -> nat) (tix : T -> nat) e e' (s s' : syntax N T E) P P' w,
  api_syntax nix tix s -> makes e s P [] -> api_syntax nix tix s' -> makes e' s' P' [] -> error_free s -> ~ cyclic (gram s) (sx_start s) -> inlined s s' ->
  productive (gram s) -> total_on tix s w ->
  exists o, returns tix P w o /\ returns tix P' w o.
Proof.
  intros N T E nix tix e e' s s' P P' w Ha Hm Ha' Hm' Hf Hc Hi Hp Ht. pose proof (C81_inline N T E nix tix e e' s s' P P' Ha Hm Ha' Hm' Hf Hc Hi w) as Hv.
  destruct Hi as (l1 & r & l2 & k & A & news & Hs & Hk & Hn & Hs' & Hst).
  destruct (C23_decides_partial N T E nix tix e s P w Ha Hm Hf Hp Ht) as [[_ [v H]]|[_ H]]; [exists (ROk v); split; auto; apply Hv; auto|].
  destruct (C23_decides_partial N T E nix tix e' s' P' w Ha' Hm' (inl_free s s' l1 l2 news r k A Hs Hk Hn Hs' Hf) (inl_productive s s' l1 l2 news r k A Hs Hk Hn Hs' Hp) (inl_total tix s s' l1 l2 news r k A Hs Hk Hn Hs' Hst w Ht)) as [[_ [v H']]|[_ H']]; [|eauto].
  apply Hv in H'. exists (ROk v). split; auto. apply Hv. auto.
Qed.
Print Assumptions C81_all.

(** a rule as asked for can always be written down *)
Definition put_in {N T E} (r : crule N T E) (k : nat) (c : crule N T E) : reducer N T E := fun args =>
  match cr_gen c (firstn (length (r_rhs (cr_rule c))) (skipn k args)) with
  | GOk v => cr_gen r (firstn k args ++ NonTerminal v :: skipn (length (r_rhs (cr_rule c))) (skipn k args)) | GErr x => GErr x | GPanic => GPanic end.
Lemma put_in_ok {N T E} (r : crule N T E) k c l : map to_sym l = firstn k (r_rhs (cr_rule r)) ++ r_rhs (cr_rule c) ++ skipn (S k) (r_rhs (cr_rule r)) ->
  inlines r k c (rule_new_raw (r_lhs (cr_rule r)) l (put_in r k c)).
Proof.
  intros H. split; [unfold rule_new_raw; simpl; rewrite H; reflexivity|]. intros be inn af E1 E2. unfold rule_new_raw, put_in. cbn [cr_gen]. rewrite <- E2, <- E1.
  assert (C : forall X (a b : list X), firstn (length a) (a ++ b) = a /\ skipn (length a) (a ++ b) = b).
  { intros X a b. rewrite firstn_app, skipn_app, Nat.sub_diag, firstn_all, skipn_all. cbn. rewrite app_nil_r. auto. }
  rewrite (proj1 (C _ be _)), (proj2 (C _ be _)), (proj1 (C _ inn _)), (proj2 (C _ inn _)). reflexivity.
Qed.

(** S ::= A x p; A ::= a | A a: a number in tens and ones, and a number to add; a = 0, x = 1, p = 2.
    A is replaced in the rule of S: S ::= a x p | A a x p *)
Section Ex.
  Open Scope Z_scope.
  Definition i_sum : crule Z tok nat := rule_new_raw 0 [NonTerminal 1%nat; Terminal 1%nat; Terminal 2%nat] (fun args => match args with [NonTerminal a; Terminal _; Terminal p] => GOk (a + snd p) | _ => GPanic end).
  Definition i_one : crule Z tok nat := rule_new_raw 1 [Terminal 0%nat] (fun args => match args with [Terminal a] => GOk (snd a) | _ => GPanic end).
  Definition i_more : crule Z tok nat := rule_new_raw 1 [NonTerminal 1%nat; Terminal 0%nat] (fun args => match args with [NonTerminal b; Terminal a] => GOk (10 * b + snd a) | _ => GPanic end).
  Definition i_old : syntax Z tok nat := mk_syntax [i_sum; i_one; i_more] 0.
  Definition i_new : syntax Z tok nat := mk_syntax [ rule_new_raw 0 [Terminal 0%nat; Terminal 1%nat; Terminal 2%nat] (put_in i_sum 0 i_one);
    rule_new_raw 0 [NonTerminal 1%nat; Terminal 0%nat; Terminal 1%nat; Terminal 2%nat] (put_in i_sum 0 i_more); i_one; i_more ] 0.
End Ex.
Definition P_iold : parser Z tok nat := Eval vm_compute in made_parser (lr1_new env0 1000 i_old).
Definition P_inew : parser Z tok nat := Eval vm_compute in made_parser (lr1_new env0 1000 i_new).
Lemma i_total w : total_on fst i_old w.
Proof.
  exists (fun _ _ => True). intros r args Hr (Hf & _) _. simpl in Hr. repeat destruct Hr as [<-|Hr]; try destruct Hr; simpl in *.
  all: repeat match goal with H : Forall2 _ (_ :: _) _ |- _ => inversion H; clear H; subst | H : Forall2 _ [] _ |- _ => inversion H; clear H; subst
    | H : fits _ _ ?a |- _ => destruct a; simpl in H; try contradiction; clear H end.
  all: simpl; eexists; split; [reflexivity|exact I].
Qed.
Example C81_example : api_syntax no_z fst i_old /\ makes env0 i_old P_iold [] /\ api_syntax no_z fst i_new /\ makes env0 i_new P_inew [] /\ error_free i_old /\
  ~ cyclic (gram i_old) 0 /\ inlined i_old i_new /\ productive (gram i_old) /\ (forall w, total_on fst i_old w) /\
  (let w := [num 1; num 2; num 3; sign 1; (2, 4%Z)] in returns fst P_iold w (ROk 127%Z) /\ returns fst P_inew w (ROk 127%Z)) /\
  (let w := [sign 1; (2, 4%Z)] in returns fst P_iold w RNotFound /\ returns fst P_inew w RNotFound).
Proof.
  split; [raw_rules|]. split; [mk1|]. split; [raw_rules|]. split; [mk1|].
  split. { intros r Hr H. simpl in Hr. repeat destruct Hr as [<-|Hr]; try destruct Hr; simpl in H; repeat (destruct H as [H|H]; try discriminate H); auto. }
  split; [not_cyclic (fun A : nat => A)|].
  split. { exists [], i_sum, [i_one; i_more], 0, 1, [rule_new_raw 0 [Terminal 0; Terminal 1; Terminal 2] (put_in i_sum 0 i_one); rule_new_raw 0 [NonTerminal 1; Terminal 0; Terminal 1; Terminal 2] (put_in i_sum 0 i_more)]. split; [reflexivity|]. split; [reflexivity|]. split; [|split; reflexivity].
    apply Forall2_cons; [exact (put_in_ok i_sum 0 i_one [Terminal 0; Terminal 1; Terminal 2] eq_refl)|]. apply Forall2_cons; [exact (put_in_ok i_sum 0 i_more [NonTerminal 1; Terminal 0; Terminal 1; Terminal 2] eq_refl)|constructor]. }
  split; [apply (prod_check_sound _ 3); reflexivity|]. split; [exact i_total|]. split; split; exists 100; vm_compute; reflexivity.
Qed.

(** The new syntax may have a conflict that the old one has not, and then an input may be lost:
    S ::= A x p | A x q with A ::= a, where A is replaced in the first rule only. *)
Theorem C81_no_warnings_needed : exists (s s' : syntax nat nat nat) P P' ws w v, api_syntax self self s /\ makes env0 s P [] /\ api_syntax self self s' /\ makes env0 s' P' ws /\
  error_free s /\ ~ cyclic (gram s) (sx_start s) /\ inlined s s' /\ productive (gram s) /\ total_on self s w /\
  returns self P w (ROk v) /\ returns self P' w RNotFound.
Proof.
  set (r1 := nrule 0 [NonTerminal 1; Terminal 1; Terminal 2]). set (r2 := nrule 0 [NonTerminal 1; Terminal 1; Terminal 3]). set (a := nrule 1 [Terminal 0]).
  exists (nst [r1; r2; a] 0), (nst [rule_new_raw 0 [Terminal 0; Terminal 1; Terminal 2] (put_in r1 0 a); r2; a] 0). eexists _, _, _, [0; 1; 3], 0.
  split; [raw_rules|]. split; [mk1|]. split; [raw_rules|]. split; [mk1|].
  split. { intros r Hr H. simpl in Hr. repeat destruct Hr as [<-|Hr]; try destruct Hr; simpl in H; repeat (destruct H as [H|H]; try discriminate H); auto. }
  split; [not_cyclic (fun A : nat => A)|].
  split. { exists [], r1, [r2; a], 0, 1, [rule_new_raw 0 [Terminal 0; Terminal 1; Terminal 2] (put_in r1 0 a)]. split; [reflexivity|]. split; [reflexivity|]. split; [|split; reflexivity].
    apply Forall2_cons; [exact (put_in_ok r1 0 a [Terminal 0; Terminal 1; Terminal 2] eq_refl)|constructor]. }
  split; [apply (prod_check_sound _ 3); reflexivity|].
  split. { exists (fun _ _ => True). intros r args Hr _ _. simpl in Hr. repeat destruct Hr as [<-|Hr]; try destruct Hr; simpl; eauto. }
  split; exists 100; vm_compute; reflexivity.
Qed.
Print Assumptions C81_no_warnings_needed.
(** Where reducers fail, the order of the calls shows: S ::= A B with A ::= a and B ::= b, and A replaced.
    The old parser calls the reducer of A first; the new one calls it after that of B. *)
Theorem C81_total_needed : exists (s s' : syntax nat nat nat) P P' w, api_syntax self self s /\ makes env0 s P [] /\ api_syntax self self s' /\ makes env0 s' P' [] /\
  error_free s /\ ~ cyclic (gram s) (sx_start s) /\ inlined s s' /\ productive (gram s) /\
  returns self P w (RReducer 1) /\ returns self P' w (RReducer 2).
Proof.
  set (r1 := nrule 0 [NonTerminal 1; NonTerminal 2]). set (a := rule_new_raw (T := nat) 1 [Terminal 0] (fun _ => @GErr nat nat 1)). set (b := rule_new_raw (T := nat) 2 [Terminal 1] (fun _ => @GErr nat nat 2)).
  exists (nst [r1; a; b] 0), (nst [rule_new_raw 0 [Terminal 0; NonTerminal 2] (put_in r1 0 a); a; b] 0). eexists _, _, [0; 1].
  split; [raw_rules|]. split; [mk1|]. split; [raw_rules|]. split; [mk1|].
  split. { intros r Hr H. simpl in Hr. repeat destruct Hr as [<-|Hr]; try destruct Hr; simpl in H; repeat (destruct H as [H|H]; try discriminate H); auto. }
  split; [not_cyclic (fun A : nat => A)|].
  split. { exists [], r1, [a; b], 0, 1, [rule_new_raw 0 [Terminal 0; NonTerminal 2] (put_in r1 0 a)]. split; [reflexivity|]. split; [reflexivity|]. split; [|split; reflexivity].
    apply Forall2_cons; [exact (put_in_ok r1 0 a [Terminal 0; NonTerminal 2] eq_refl)|constructor]. }
  split; [apply (prod_check_sound _ 3); reflexivity|]. split; exists 100; vm_compute; reflexivity.
Qed.
Print Assumptions C81_total_needed.
