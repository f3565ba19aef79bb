(** * What [parse] does with wrong contents of brackets *)
From Coq Require Import List Arith Lia Bool Sorted.
From Verif Require Import Lib Grammar LrModel LrSpec LrSets LrStates LrNew LrTop LrMono ParseModel Trees ParseSpec ParseInv ParseComplete GramFacts ParseTerm ParseTop ParseMore ParseCover ParseRecTerm ParseAmb PropParse PropRecover SkipSpec ParseSkip StmtSpec BrackSpec.
Import ListNotations.

Section BrackRun.
  Context {N T E : Type} (tix : T -> nat).
  Variables (base : list (crule N T E)) (X Gr op cl start : nat) (g1 g2 : reducer N T E).
  Let s := bracket_syntax base X Gr op cl start g1 g2.
  Hypothesis Hb : bracket_rules base op cl.
  Variables (P : parser N T E) (ss : nat) (w : list T).
  Hypothesis Hm : made s P [] ss.
  Hypothesis Hp : productive (gram s).
  Notation invat := (inv_at tix (gram s) (sx_start s) ss P w).
  Notation step := (parse_step tix P).
  Notation all := (sx_rules s).
  Let p := pr_tab P.
  Let rs := augment (gram s) (sx_start s) ss.
  Let sr := length (gram s).
  Let nb := length base.
  Let B := map cr_rule base.
  Let Hcan : canonical rs sr p := md_can _ _ _ _ Hm.
  Notation Open := (TM (TSym op)).
  Notation Close := (TM (TSym cl)).
  Let r1 := mk_rule Gr [Open; NT X; Close].
  Let r2 := mk_rule Gr [Open; TM TErr; Close].
  Notation rl := [r1; r2].
  Notation rstart := (mk_rule ss [NT start]).

  Lemma gram_eq : gram s = B ++ rl.
  Proof. unfold gram, s, bracket_syntax. cbn [sx_rules]. rewrite map_app. reflexivity. Qed.
  Lemma B_len : length B = nb.
  Proof. apply map_length. Qed.
  Lemma sr_eq : sr = nb + 2.
  Proof. unfold sr. rewrite gram_eq, app_length, B_len. reflexivity. Qed.
  Lemma rs_eq : rs = B ++ rl ++ [rstart].
  Proof. unfold rs, augment. rewrite gram_eq, <- app_assoc. reflexivity. Qed.
  Lemma nth_rs k : nth_error rs k = if k <? nb then nth_error B k else nth_error (rl ++ [rstart]) (k - nb).
  Proof.
    rewrite rs_eq. destruct (Nat.ltb_spec k nb) as [H|H]; [rewrite nth_error_app1|rewrite nth_error_app2]; rewrite ?B_len; auto.
  Qed.
  Lemma nth_base k : k < nb -> nth_error rs k = nth_error B k.
  Proof. intros H. rewrite nth_rs, (proj2 (Nat.ltb_lt _ _) H). auto. Qed.
  Lemma nth_r j : nth_error rs (nb + j) = nth_error (rl ++ [rstart]) j.
  Proof. rewrite nth_rs, (proj2 (Nat.ltb_ge _ _)) by lia. f_equal. lia. Qed.
  Lemma nth_sr : nth_error rs sr = Some rstart.
  Proof. exact (augment_start (gram s) (sx_start s) ss). Qed.
  Lemma nth_1 : nth_error rs nb = Some r1.
  Proof. rewrite <- (Nat.add_0_r nb), nth_r. reflexivity. Qed.
  Lemma nth_2 : nth_error rs (nb + 1) = Some r2.
  Proof. rewrite nth_r. reflexivity. Qed.
  Lemma B_In r : In r B -> r_rhs r <> [] /\ ~ In (TM TErr) (r_rhs r) /\ ~ In Open (r_rhs r) /\ ~ In Close (r_rhs r).
  Proof. intros H. apply in_map_iff in H as (c & <- & Hc). destruct Hb as (_ & H1). specialize (H1 _ Hc). tauto. Qed.
  Lemma B_gram r : In r B -> In r (gram s).
  Proof. rewrite gram_eq. intros H. apply in_or_app. auto. Qed.
  Lemma rule_base k r : k < nb -> nth_error rs k = Some r -> In r B.
  Proof. intros H Hk. rewrite nth_base in Hk by auto. eapply nth_error_In; eauto. Qed.
  Lemma which k r : nth_error rs k = Some r -> (k < nb /\ In r B) \/ (k = nb /\ r = r1) \/ (k = nb + 1 /\ r = r2) \/ (k = sr /\ r = rstart).
  Proof.
    intros Hr. destruct (Nat.lt_ge_cases k nb) as [H|H].
    - left. split; auto. eapply rule_base; eauto.
    - right. rewrite sr_eq. replace k with (nb + (k - nb)) in Hr by lia. rewrite nth_r in Hr. remember (k - nb) as j eqn:Ej. assert (k = nb + j) by lia. subst k. clear Ej.
      destruct j as [|[|[|j]]]; cbn in Hr; [injection Hr as <-..|destruct j; discriminate]; [left; split; auto; lia|auto|right; right; auto].
  Qed.
  Lemma op_cl : Open <> Close.
  Proof. destruct Hb as (H & _). congruence. Qed.

  (** what is on the stack above an opening bracket *)
  Definition dsym (Z : sym) : Prop := Z <> Open /\ Z <> Close /\ Z <> TM TErr.
  Lemma open_split (g d g' d' : list sym) : ~ In Open d -> ~ In Open d' -> (g ++ [Open]) ++ d = (g' ++ [Open]) ++ d' -> g = g' /\ d = d'.
  Proof.
    revert d'. induction d as [|Z d IH] using rev_ind; intros d' H1 H2 E0.
    - rewrite app_nil_r in E0. destruct d' as [|Z' d' _] using rev_ind; [rewrite app_nil_r in E0; apply app_inj_tail in E0; tauto|].
      exfalso. rewrite app_assoc in E0. apply app_inj_tail in E0 as [_ <-]. apply H2. apply in_or_app. simpl. auto.
    - destruct d' as [|Z' d' _] using rev_ind.
      + exfalso. rewrite app_nil_r, app_assoc in E0. apply app_inj_tail in E0 as [_ ->]. apply H1. apply in_or_app. simpl. auto.
      + rewrite (app_assoc (g ++ [Open])), (app_assoc (g' ++ [Open])) in E0. apply app_inj_tail in E0 as [E0 ->].
        destruct (IH d') as [-> ->]; auto; intros H; [apply H1|apply H2]; apply in_or_app; auto.
  Qed.
  Lemma dsym_open d : Forall dsym d -> ~ In Open d.
  Proof. intros H Hin. rewrite Forall_forall in H. destruct (H _ Hin) as [A _]. auto. Qed.
  Definition okg (gm : list sym) : Prop := exists g t, gm = g ++ [Open] /\ valid rs sr gm (mk_item nb 1 t) /\ valid rs sr gm (mk_item (nb + 1) 1 t).
  Lemma vsplit g k q b r : valid rs sr g (mk_item k q b) -> nth_error rs k = Some r -> exists d, g = d ++ firstn q (r_rhs r) /\ q <= length (r_rhs r).
  Proof.
    intros Hv Hr. destruct (valid_split rs sr _ _ Hv (ex_intro _ _ nth_sr)) as (r' & d & E1 & E2 & E3 & _). cbn [i_rule i_pos] in *. assert (r' = r) by congruence. subst r'. eauto.
  Qed.
  Lemma wants_close g d : okg g -> Forall dsym d -> wants rs sr (g ++ d) Close -> d = [NT X].
  Proof.
    intros (g0 & t & -> & _) Hd (k & q & b & r & Hv & Hr & Hq). destruct (vsplit _ _ _ _ _ Hv Hr) as (g' & E0 & _). apply dsym_open in Hd as Hd'. pose proof op_cl as Hoc.
    destruct (which _ _ Hr) as [[_ Hin]|[[_ ->]|[[_ ->]|[_ ->]]]].
    - exfalso. apply B_In in Hin. apply nth_error_In in Hq. tauto.
    - assert (q = 2) by (destruct q as [|[|[|q]]]; cbn in Hq; try congruence; destruct q; discriminate). subst q. cbn [firstn r_rhs r1] in E0.
      change [Open; NT X] with ([Open] ++ [NT X]) in E0. rewrite (app_assoc g') in E0. apply open_split in E0; auto; [tauto|]. intros [H|[]]; discriminate.
    - assert (q = 2) by (destruct q as [|[|[|q]]]; cbn in Hq; try congruence; destruct q; discriminate). subst q. cbn [firstn r_rhs r2] in E0.
      change [Open; TM TErr] with ([Open] ++ [TM TErr]) in E0. rewrite (app_assoc g') in E0. apply open_split in E0; auto; [|intros [H|[]]; discriminate].
      destruct E0 as [_ ->]. inversion Hd as [|? ? (_ & _ & HY) _]. congruence.
    - destruct q as [|q]; [discriminate|destruct q; discriminate].
  Qed.
  Lemma err_rule k r : nth_error rs k = Some r -> In (TM TErr) (r_rhs r) -> k = nb + 1.
  Proof.
    intros Hr Hin. destruct (which _ _ Hr) as [[_ Hi]|[[_ ->]|[[-> _]|[_ ->]]]]; auto; exfalso.
    - apply B_In in Hi. tauto.
    - cbn in Hin. intuition discriminate.
    - cbn in Hin. intuition discriminate.
  Qed.
  Lemma wants_err g d k q b r : okg g -> Forall dsym d -> valid rs sr (g ++ d) (mk_item k q b) -> nth_error rs k = Some r -> nth_error (r_rhs r) q = Some (TM TErr) -> d = [] /\ k = nb + 1.
  Proof.
    intros (g0 & t & -> & _) Hd Hv Hr Hq. assert (Ek : k = nb + 1) by (eapply err_rule; eauto; eapply nth_error_In; eauto). split; auto. subst k.
    rewrite nth_2 in Hr. injection Hr as <-. assert (q = 1) by (destruct q as [|[|[|q]]]; cbn in Hq; try discriminate; auto; destruct q; discriminate). subst q.
    destruct (vsplit _ _ _ _ _ Hv nth_2) as (g' & E0 & _). cbn [firstn r_rhs r2] in E0. rewrite <- (app_nil_r (g' ++ [Open])) in E0. apply open_split in E0; [tauto|apply dsym_open; auto|auto].
  Qed.
  Lemma suffix_of (g d d1 l : list sym) : ~ In Open d -> ~ In Open l -> (g ++ [Open]) ++ d = d1 ++ l -> exists d0, d = d0 ++ l /\ d1 = (g ++ [Open]) ++ d0.
  Proof.
    revert l. induction d as [|Z d IH] using rev_ind; intros l H1 H2 E0.
    - destruct l as [|Z' l _] using rev_ind; [exists []; rewrite !app_nil_r in *; auto|].
      exfalso. rewrite app_nil_r, app_assoc in E0. apply app_inj_tail in E0 as [_ <-]. apply H2. apply in_or_app. simpl. auto.
    - destruct l as [|Z' l _] using rev_ind; [exists (d ++ [Z]); rewrite !app_nil_r in *; auto|].
      rewrite (app_assoc (g ++ [Open])), (app_assoc d1) in E0. apply app_inj_tail in E0 as [E0 ->].
      destruct (IH l) as (d0 & -> & ->); auto; [intros H; apply H1; apply in_or_app; auto|intros H; apply H2; apply in_or_app; auto|]. exists d0. rewrite app_assoc. auto.
  Qed.
  Lemma complete_cases g d k t : okg g -> Forall dsym d -> k <> sr -> complete rs sr (g ++ d) k t ->
    k < nb /\ exists r d1, nth_error rs k = Some r /\ d = d1 ++ r_rhs r /\ Forall dsym d1.
  Proof.
    intros (g0 & t0 & -> & _) Hd Hk Hc. destruct (complete_split rs sr _ k t (ex_intro _ _ nth_sr) Hc Hk) as (r & dd & Hr & E0 & _).
    assert (Hlast : forall l Z, (g0 ++ [Open]) ++ d = l ++ [Z] -> Z <> Close).
    { intros l Z E1. destruct d as [|Z' d' _] using rev_ind; [rewrite app_nil_r in E1; apply app_inj_tail in E1 as [_ <-]; apply op_cl|].
      rewrite app_assoc in E1. apply app_inj_tail in E1 as [_ <-]. apply Forall_app in Hd as [_ Hd]. inversion Hd as [|? ? (_ & H & _) _]. auto. }
    destruct (which _ _ Hr) as [[Hlt Hin]|[[_ ->]|[[_ ->]|[Ek _]]]]; [| | |congruence].
    - split; auto. exists r. destruct (suffix_of _ _ _ _ (dsym_open _ Hd) (proj1 (proj2 (proj2 (B_In _ Hin)))) E0) as (d1 & E1 & _). exists d1. split; auto. split; auto. rewrite E1 in Hd. apply Forall_app in Hd. tauto.
    - exfalso. eapply (Hlast (dd ++ [Open; NT X])); [rewrite E0, <- app_assoc; reflexivity|auto].
    - exfalso. eapply (Hlast (dd ++ [Open; TM TErr])); [rewrite E0, <- app_assoc; reflexivity|auto].
  Qed.
  Lemma no_accept g d : okg g -> ~ accepting rs sr (g ++ d).
  Proof.
    intros (g0 & t & -> & _) Ha. apply (accepting_g _ _ _ (md_fresh _ _ _ _ Hm)) in Ha. assert (Hin : In Open [NT (sx_start s)]) by (rewrite <- Ha; apply in_or_app; left; apply in_or_app; simpl; auto).
    destruct Hin as [Hin|[]]. discriminate.
  Qed.
  Lemma firsts_tm t0 l t : firsts rs (TM t0 :: l) t -> t = t0.
  Proof. intros H. apply firsts_firstl in H. inversion H; subst; auto. match goal with H : der _ (TM _) [] |- _ => inversion H end. Qed.
  Lemma firsts_NT r l t : In r rs -> firsts rs (r_rhs r) t -> firsts rs (NT (r_lhs r) :: l) t.
  Proof. intros Hr Hf. apply firsts_firstl. apply firsts_firstl in Hf. constructor; auto. Qed.
  Lemma open_items gm it : valid rs sr gm it -> forall g, gm = g ++ [Open] ->
    (i_pos it = 0 /\ forall r t, nth_error rs (i_rule it) = Some r -> firsts rs (r_rhs r) t -> firsts rs [NT X] t) \/
    (i_pos it = 1 /\ (i_rule it = nb \/ i_rule it = nb + 1)).
  Proof.
    induction 1 as [|gm k q b r Z H IH Hr HZ|gm k q b r A k' r' t H IH Hr HA Hr' Hl Hf]; cbn [i_rule i_pos i_la] in *; intros g E0.
    - destruct g; discriminate.
    - right. apply app_inj_tail in E0 as [_ ->]. destruct (which _ _ Hr) as [[_ Hin]|[[-> ->]|[[-> ->]|[_ ->]]]].
      + exfalso. apply B_In in Hin. apply nth_error_In in HZ. tauto.
      + pose proof op_cl. destruct q as [|[|[|q]]]; cbn in HZ; try congruence; auto. destruct q; discriminate.
      + pose proof op_cl. destruct q as [|[|[|q]]]; cbn in HZ; try congruence; auto. destruct q; discriminate.
      + destruct q as [|q]; [discriminate|destruct q; discriminate].
    - left. split; auto. intros r0 t0 Hr0 Hf0. assert (r0 = r') by congruence. subst r0. destruct (IH _ E0) as [[-> IH']|[-> [-> | ->]]].
      + apply (IH' r t0 Hr). destruct (r_rhs r) as [|Z l]; [discriminate|]. cbn in HA. injection HA as ->. subst A. apply firsts_NT; auto. eapply nth_error_In; eauto.
      + rewrite nth_1 in Hr. injection Hr as <-. cbn in HA. injection HA as <-. rewrite <- Hl. apply firsts_NT; auto. eapply nth_error_In; eauto.
      + rewrite nth_2 in Hr. injection Hr as <-. cbn in HA. discriminate.
  Qed.
  Lemma wants_base g d t : okg g -> wants rs sr (g ++ d) (TM t) -> t <> TErr -> t <> TSym op -> t <> TSym cl -> dsym (TM t) /\ (d = [] -> firsts rs [NT X] t).
  Proof.
    intros (g0 & t0 & -> & _) (k & q & b & r & Hv & Hr & Hq) H1 H2 H3. split; [unfold dsym; repeat split; congruence|]. intros ->. rewrite app_nil_r in Hv.
    destruct (open_items _ _ Hv _ eq_refl) as [[Eq Hf]|[Eq Hk]]; cbn [i_rule i_pos] in *; subst q.
    - apply (Hf r t Hr). destruct (r_rhs r) as [|Z l]; [discriminate|]. cbn in Hq. injection Hq as ->. exists l. constructor.
    - exfalso. destruct Hk as [-> | ->]; [rewrite nth_1 in Hr|rewrite nth_2 in Hr]; injection Hr as <-; cbn in Hq; congruence.
  Qed.
  Lemma X_ss : X <> ss.
  Proof. intros E0. apply (ss_rhs (gram s) ss (md_fresh _ _ _ _ Hm) r1); [rewrite gram_eq; apply in_or_app; right; simpl; auto|]. simpl. right. left. congruence. Qed.
  Lemma firsts_begin x : firsts rs [NT X] (TSym (tix x)) -> can_begin tix all X x.
  Proof.
    intros Hf. apply firsts_firstl in Hf. assert (Hin : In r1 (gram s)) by (rewrite gram_eq; apply in_or_app; simpl; auto).
    destruct (firstl_word _ _ _ (md_fresh _ _ _ _ Hm) _ _ Hp Hf) as [z Hz].
    - pose proof (prod_ok _ _ (md_fresh _ _ _ _ Hm) r1 Hp Hin) as H. inversion H as [|? ? _ H']. inversion H'. constructor; auto.
    - exists z. apply (proj1 (ders_one _ _ _)) in Hz. exact Hz.
  Qed.
  Lemma stmt_star g u v : okg g -> der (gram s) (NT X) u -> fst_of v TEoi = TSym cl -> astar (gram s) (sx_start s) ss (g, u ++ v) (g ++ [NT X], v).
  Proof.
    intros (g0 & t & _ & Hg & _) Hd Hv. eapply (proj1 (machine_complete (gram s) (sx_start s) ss) _ _ Hd g nb 1 t r1 v Hg).
    - exact nth_1.
    - reflexivity.
    - rewrite Hv. exists [TM t]. constructor.
  Qed.
  Lemma begin_decides g x : okg g -> can_begin tix all X x -> ~ decides rs sr p g (TSym (tix x)) None.
  Proof.
    intros Hg [z Hz] Hd. pose proof (stmt_star g _ [TSym cl] Hg Hz eq_refl) as Ha.
    assert (Hn : forall c c', astar (gram s) (sx_start s) ss c c' -> c = c' \/ exists c1, astep (gram s) (sx_start s) ss c c1) by (intros c c' []; eauto).
    apply Hn in Ha as [Ha|[c1 Ha]].
    - injection Ha as Ha _. apply (f_equal (@length _)) in Ha. rewrite app_length in Ha. simpl in Ha. lia.
    - eapply (stuck_step (gram s) (sx_start s) ss P g); [|exact Ha]. exact Hd.
  Qed.
  Lemma complete_decides g k t d0 : complete rs sr g k t -> k <> sr -> (t = TEoi -> ~ accepting rs sr g) -> decides rs sr p g t d0 -> d0 = Some (Reduce k).
  Proof.
    intros Hc Hk Hacc Hd. destruct (cf_of s P [] ss Hm eq_refl _ _ _ Hk Hc) as [Hw Hu]. destruct d0 as [[q|k'|]|]; cbn in Hd.
    - tauto.
    - destruct Hd as (_ & _ & H1 & H2 & _). rewrite (Hu k' H1 H2). auto.
    - exfalso. destruct Hd as (_ & E0 & Ha). exact (Hacc E0 Ha).
    - exfalso. destruct Hd as (_ & _ & H1). exact (H1 _ Hk Hc).
  Qed.
  (** ** Trees *)
  Lemma app_seq (l1 l2 : list nat) a n : l1 ++ l2 = seq a n -> l1 = seq a (length l1) /\ l2 = seq (a + length l1) (n - length l1) /\ length l1 <= n.
  Proof.
    revert a n. induction l1 as [|x l1 IH]; intros a n E0; simpl in *.
    - rewrite Nat.add_0_r, Nat.sub_0_r. repeat split; auto. lia.
    - destruct n as [|n]; [discriminate|]. simpl in E0. injection E0 as -> E0. destruct (IH _ _ E0) as (H1 & H2 & H3).
      split; [f_equal; auto|]. split; [|lia]. rewrite H2. simpl. f_equal; lia.
  Qed.
  Lemma firstn_plus {A} n m (l : list A) : firstn (n + m) l = firstn n l ++ firstn m (skipn n l).
  Proof. revert l. induction n as [|n IH]; intros [|x l]; simpl; auto; [destruct m; auto|]. rewrite IH. auto. Qed.
  Lemma skipn_plus {A} a b (l : list A) : skipn a (skipn b l) = skipn (b + a) l.
  Proof. revert l. induction b as [|b IH]; intros l; [auto|]. destruct l; simpl; [destruct a; auto|apply IH]. Qed.
  Lemma cr_nth k r : nth_error rs k = Some r -> k < nb -> exists c, nth_error base k = Some c /\ cr_rule c = r /\ nth_error (pr_gens P) k = Some (cr_gen c).
  Proof.
    intros Hr Hk. rewrite (nth_base _ Hk) in Hr. unfold B in Hr. rewrite nth_error_map in Hr. destruct (nth_error base k) as [c|] eqn:Ec; [|discriminate].
    injection Hr as Hr. exists c. split; auto. split; auto. rewrite (md_gens _ _ _ _ Hm), nth_error_app1 by (unfold gens; rewrite map_length; unfold s, bracket_syntax; cbn [sx_rules]; rewrite app_length; fold nb; lia).
    unfold gens, s, bracket_syntax. cbn [sx_rules]. rewrite nth_error_map, nth_error_app1, Ec by auto. reflexivity.
  Qed.
  Lemma clean_leaves w0 : (forall Z t, twf tix rs w0 Z t -> clean t = true -> leaves t <> []) /\
    (forall l ts, twfs tix rs w0 l ts -> forallb clean ts = true -> l <> [] -> flat_map leaves ts <> []).
  Proof.
    apply twf_twfs_ind.
    - discriminate.
    - discriminate.
    - intros k r ts Hr _ IH Hc. simpl in *. apply IH; auto. destruct (which _ _ Hr) as [[_ Hin]|[[_ ->]|[[_ ->]|[_ ->]]]]; try discriminate. apply (B_In _ Hin).
    - congruence.
    - intros Z l t ts _ IH1 _ IH2 Hc _ E0. simpl in *. apply andb_true_iff in Hc as [H1 H2]. apply app_eq_nil in E0 as [E0 _]. exact (IH1 H1 E0).
  Qed.
  Lemma tok_slice w0 pos n : pos + n <= length w0 -> map (tok tix w0) (seq pos n) = kinds tix (firstn n (skipn pos w0)).
  Proof.
    revert pos. induction n as [|n IH]; intros pos Hl; auto. simpl. destruct (nth_error w0 pos) as [x|] eqn:Ex; [|apply nth_error_None in Ex; lia].
    rewrite (skipn_cons _ _ _ Ex). simpl. unfold tok at 1. rewrite Ex. f_equal. apply IH. lia.
  Qed.
  Lemma tree_stmt w0 t pos n : twf tix rs w0 (NT X) t -> clean t = true -> leaves t = seq pos n -> pos + n <= length w0 -> is_stmt tix all X (firstn n (skipn pos w0)).
  Proof.
    intros Ht Hc Hl Hn. pose proof (proj1 (tree_der tix rs w0) _ _ Ht Hc) as Hd. rewrite Hl, tok_slice in Hd by auto.
    unfold is_stmt. change (map cr_rule all) with (gram s). apply (proj1 (der_aug0 _ _ _ (md_fresh _ _ _ _ Hm))) in Hd; auto. pose proof X_ss. congruence.
  Qed.

  (** ** Turns *)
  Definition rec_ok (st : pstate N T) : Prop := forall k, In k (ps_rec st) -> k = nb + 1.
  Lemma read_rec (st : pstate N T) : ps_rec (ps_read tix st) = ps_rec st.
  Proof. unfold ps_read. destruct (ps_buf st); auto. destruct (ps_iter st); auto. Qed.
  Lemma read_state (st : pstate N T) : ps_state (ps_read tix st) = ps_state st.
  Proof. unfold ps_read. destruct (ps_buf st); auto. destruct (ps_iter st); auto. Qed.
  Lemma errs_ok g q ers : state_of p g = Some q -> aget eqb q (p_errors p) = Some ers -> forall k, In k ers -> k = nb + 1.
  Proof.
    intros Hg He k Hk. pose proof (can_errors _ _ _ Hcan _ _ Hg) as H. rewrite He in H. apply H in Hk as (q0 & la & r & _ & Hr & Hq). eapply err_rule; eauto. eapply nth_error_In; eauto.
  Qed.
  Lemma inv_next st g ts pos st' : invat st g ts pos -> step st = inl st' -> exists g' ts' pos', invat st' g' ts' pos'.
  Proof.
    intros Hinv Hs. destruct (cases tix s P [] ss w Hm _ _ _ _ Hinv) as ([[q|k|]|] & _ & Hc); cbn in Hc.
    - destruct Hc as (_ & _ & s' & E0 & Hi). rewrite E0 in Hs. injection Hs as <-. eauto.
    - destruct Hc as [(r & _ & _ & E0 & _)|(r & dd & ts1 & ts2 & args & gen & _ & _ & _ & _ & _ & _ & _ & _ & _ & Hc)]; [congruence|].
      destruct (gen args); [destruct Hc as (s' & E0 & Hi); rewrite E0 in Hs; injection Hs as <-; eauto|destruct Hc; congruence|congruence].
    - destruct Hc as (_ & _ & _ & t & v & _ & _ & E0). congruence.
    - destruct Hc as (_ & [(it & E0 & _)|(s' & E0 & _ & g' & ts' & ts2 & lo & hi & pos' & _ & _ & _ & _ & _ & Hi)]); [congruence|]. rewrite E0 in Hs. injection Hs as <-. eauto.
  Qed.
  Lemma rec_step st g ts pos st' : invat st g ts pos -> rec_ok st -> step st = inl st' -> rec_ok st'.
  Proof.
    intros Hinv Hr Hs. destruct (inv_next _ _ _ _ _ Hinv Hs) as (g' & ts' & pos' & Hinv'). unfold parse_step in Hs. cbv zeta in Hs. rewrite read_rec in Hs.
    destruct (ps_buf (ps_read tix st)) as [|[t i] buf]; [discriminate|]. fold p in Hs.
    destruct (act p (ps_state (ps_read tix st)) t) as [[[q|k|]|]| |]; try discriminate.
    - destruct t; try discriminate; injection Hs as <-; exact Hr.
    - destruct (nth_error (p_rules p) k) as [r|]; [|discriminate]. destruct (_ <? _); [discriminate|]. destruct (reduce_args _ _ _) as [args| |]; try discriminate.
      destruct (nth_error (pr_gens P) k) as [g0|]; [|discriminate]. destruct (g0 args); try discriminate. destruct (aget eqb _ (p_goto p)) as [row|]; [|discriminate].
      destruct (aget eqb (r_lhs r) row) as [q|]; [|discriminate]. injection Hs as <-. unfold rec_ok. cbn [ps_rec]. destruct (existsb _ _); [intros ? []|exact Hr].
    - destruct (ps_stack _) as [|[? []] ?]; discriminate.
    - destruct (recover _ _ _ _ _ _ _ _) as [[[[[[cur st1] rc] back] head] ehead]|] eqn:Er; [|discriminate].
      destruct (put_back _ _ _ _) as [pb| |]; try discriminate. destruct (act p cur TErr) as [[[q|k|]|]| |]; try discriminate. injection Hs as <-.
      apply (recover_rc P) in Er as (ers & E1 & E2).
      pose proof (inv_stk _ _ _ _ _ _ _ _ _ _ Hinv') as Hk. cbn [ps_stack] in Hk. inversion Hk as [|? g0 ? ? ? ? ? _ Hg0 _ _]; subst.
      intros k Hin. cbn [ps_rec] in Hin. eapply errs_ok; eauto. destruct E2 as [->|[_ E2]]; auto.
  Qed.

  Lemma recover_here g q rc back head ehead (stk0 : list (nat * entry N)) : okg g -> state_of p g = Some q -> (forall k, In k rc -> k = nb + 1) ->
    exists rc', (forall k, In k rc' -> k = nb + 1) /\ recover p false rc back q head ehead stk0 = Some (q, stk0, rc', back, head, ehead).
  Proof.
    intros (g0 & b0 & Eg & _ & Hg) Hq Hrc. assert (Hw : wants_error rs sr g (nb + 1)).
    { exists 1, b0, r2. split; [exact Hg|]. split; [exact nth_2|reflexivity]. }
    pose proof (can_errors _ _ _ Hcan _ _ Hq) as He. destruct (aget eqb q (p_errors p)) as [ers|] eqn:Ee; [|exfalso; eapply He; eauto].
    destruct He as [Hne He]. apply He in Hw.
    destruct rc as [|y rc].
    - exists ers. split; [eapply errs_ok; eauto|]. destruct stk0; cbn [recover negb orb]; rewrite Ee; reflexivity.
    - exists (inter_nat (y :: rc) ers). split; [intros k Hk; apply filter_In in Hk as [Hk _]; auto|].
      assert (Hd : disjoint_nat (y :: rc) ers = false).
      { unfold disjoint_nat. cbn [forallb]. replace (existsb (Nat.eqb y) ers) with true; [reflexivity|]. symmetry. apply existsb_exists. exists (nb + 1). split; auto. apply Nat.eqb_eq. apply Hrc. left. auto. }
      destruct stk0; cbn [recover negb orb]; rewrite Ee, Hd; reflexivity.
  Qed.
  Lemma recover_to n g : okg g -> forall d (stk0 : list (nat * entry N)) ts back q head ehead rc, stk tix (gram s) (sx_start s) ss P w n stk0 (g ++ d) ts -> state_of p (g ++ d) = Some q ->
    (forall d1 d2, d = d1 ++ d2 -> d1 <> [] -> ~ wants rs sr (g ++ d1) (TM TErr)) -> (forall k, In k rc -> k = nb + 1) ->
    exists q' rc', state_of p g = Some q' /\ (forall k, In k rc' -> k = nb + 1) /\
      recover p false rc back q head ehead stk0 = Some (q', skipn (length d) stk0, rc', match d with [] => back | _ => true end,
        fst (fold_left upd (map snd (firstn (length d) stk0)) (head, ehead)), snd (fold_left upd (map snd (firstn (length d) stk0)) (head, ehead))).
  Proof.
    intros Hg d. induction d as [|Y d IH] using rev_ind; intros stk0 ts back q head ehead rc Hk Hq Hw Hrc.
    - rewrite app_nil_r in Hq. destruct (recover_here g q rc back head ehead stk0 Hg Hq Hrc) as (rc' & H1 & H2). exists q, rc'. split; auto.
    - assert (Hn : aget eqb q (p_errors p) = None).
      { destruct (aget eqb q (p_errors p)) as [ers|] eqn:Ee; auto. exfalso. apply (Hw (d ++ [Y]) []); [rewrite app_nil_r; auto|destruct d; discriminate|]. eapply errors_wants; eauto. }
      rewrite app_assoc in Hk. inversion Hk as [E0|st1 g0 ts0 s0 e Y0 t0 Hk0 Hs0 He0 _ E1 E2 E3]; [destruct (g ++ d); discriminate|]. apply app_inj_tail in E2 as [-> ->].
      replace (length (d ++ [Y])) with (S (length d)) by (rewrite app_length; simpl; lia). cbn [skipn firstn map fold_left snd].
      assert (Hw' : forall d1 d2, d = d1 ++ d2 -> d1 <> [] -> ~ wants rs sr (g ++ d1) (TM TErr)) by (intros d1 d2 ->; apply (Hw d1 (d2 ++ [Y])); rewrite app_assoc; auto).
      assert (G : forall h eh, exists q' rc', state_of p g = Some q' /\ (forall k, In k rc' -> k = nb + 1) /\
         recover p false rc true s0 h eh st1 = Some (q', skipn (length d) st1, rc', match d ++ [Y] with [] => back | _ => true end,
           fst (fold_left upd (map snd (firstn (length d) st1)) (h, eh)), snd (fold_left upd (map snd (firstn (length d) st1)) (h, eh)))).
      { intros h eh. destruct (IH st1 ts0 true s0 h eh rc Hk0 Hs0 Hw' Hrc) as (q' & rc' & A1 & A2 & A3). exists q', rc'. split; auto. split; auto. rewrite A3. destruct d; reflexivity. }
      destruct e as [v i|k i|lo hi|]; cbn [recover negb orb upd fst snd]; rewrite Hn; [apply G|apply G|apply G|destruct He0].
  Qed.

  Lemma twf_fun w0 t Y Y' : twf tix rs w0 Y t -> twf tix rs w0 Y' t -> Y = Y'.
  Proof. intros H1 H2. inversion H1; subst; inversion H2; subst; auto; congruence. Qed.
  Lemma twfs_fun w0 ts : forall l l', twfs tix rs w0 l ts -> twfs tix rs w0 l' ts -> l = l'.
  Proof.
    induction ts as [|t ts IH]; intros l l' H1 H2; inversion H1; subst; inversion H2; subst; auto. f_equal; [eapply twf_fun; eauto|auto].
  Qed.
  Lemma inv_len st g ts pos : invat st g ts pos -> length (ps_stack st) = length g /\ length ts = length g.
  Proof.
    intros Hinv. pose proof (inv_stk _ _ _ _ _ _ _ _ _ _ Hinv) as Hk. apply (stk_len _ _ _ _ _ _ (md_len _ _ _ _ Hm)) in Hk. lia.
  Qed.

  Lemma app_len_inj {A} (a b c d : list A) : a ++ b = c ++ d -> length a = length c -> a = c.
  Proof. revert c. induction a as [|x a IH]; intros [|y c] H1 H2; simpl in *; try discriminate; auto. injection H1 as -> H1. f_equal. eapply IH; eauto. Qed.
  Lemma error_turn st g d tg td pos : invat st (g ++ d) (tg ++ td) pos -> okg g -> length tg = length g -> pos < length w -> decides rs sr p (g ++ d) (la_at tix w pos) None ->
    (forall d1 d2, d = d1 ++ d2 -> d1 <> [] -> ~ wants rs sr (g ++ d1) (TM TErr)) -> rec_ok st ->
    exists st' q h eh, fold_left upd (map snd (firstn (length d) (ps_stack st))) (pos, pos) = (h, eh) /\ step st = inl st' /\
      invat st' (g ++ [TM TErr]) (tg ++ [Bad (Nat.min h eh) pos]) (match d with [] => pos | _ => S (Nat.min h pos) end) /\ rec_ok st' /\
      ps_stack st' = (q, EErr (Nat.min h eh) pos) :: skipn (length d) (ps_stack st).
  Proof.
    intros Hinv Hg Hlen Hlt Hd Hw Hrec.
    destruct (read_inv tix _ _ _ _ _ (md_len _ _ _ _ Hm) _ _ _ _ Hinv) as [Hread (t0 & i0 & buf0 & Eb0 & Hcase)].
    destruct Hcase as [(x & Hx & -> & -> & Hlt0 & ->)|(_ & _ & Hp' & _)]; [|lia].
    pose proof (inv_stk _ _ _ _ _ _ _ _ _ _ Hread) as Hk. rewrite read_stack in Hk.
    pose proof (inv_state _ _ _ _ _ _ _ _ _ _ Hinv) as Hst. fold p in Hst.
    assert (Hla : la_at tix w pos = TSym (tix x)) by (unfold la_at; rewrite Hx; reflexivity). rewrite Hla in Hd.
    assert (Hact : act p (ps_state st) (TSym (tix x)) = Ok None).
    { destruct (act_state (gram s) (sx_start s) ss P Hcan _ _ (TSym (tix x)) Hst) as (d0 & Ha & Hdd). fold p in Ha. rewrite Ha. f_equal. eapply decides_det; eauto. }
    destruct (recover_to _ _ Hg d (ps_stack st) (tg ++ td) false (ps_state st) pos pos (ps_rec st) Hk Hst Hw Hrec) as (q & rc & Hq & Hrc & Erec).
    destruct (fold_left upd (map snd (firstn (length d) (ps_stack st))) (pos, pos)) as [h eh] eqn:Ef. cbn [fst snd] in Erec.
    destruct (act_state (gram s) (sx_start s) ss P Hcan _ _ TErr Hq) as (dE & HaE & HdE). fold p in HaE.
    assert (HwE : wants rs sr g (TM TErr)) by (destruct Hg as (g0 & b0 & Eg & _ & Hg); exists (nb + 1), 1, b0, r2; split; [exact Hg|]; split; [exact nth_2|reflexivity]).
    destruct dE as [[q'|k'|]|]; try (destruct HdE as [HdE _]; contradiction).
    assert (Hstep : exists st', step st = inl st' /\ ps_stack st' = (q, EErr (Nat.min h eh) pos) :: skipn (length d) (ps_stack st)).
    { eexists. split.
      - unfold parse_step. cbv zeta. rewrite Eb0. fold p. rewrite read_state, Hact, read_rec, read_stack, Erec.
        rewrite put_back_ok by lia. rewrite HaE. reflexivity.
      - reflexivity. }
    destruct Hstep as (st' & Hs & Hstk'). exists st', q, h, eh. split; auto. split; auto.
    destruct (cases tix s P [] ss w Hm _ _ _ _ Hinv) as (d0 & Hd0 & Hc). rewrite Hla in Hd0. assert (d0 = None) by (eapply decides_det; eauto). subst d0. destruct Hc as [_ Hc].
    destruct Hc as [(it & E0 & _)|(s' & E0 & _ & g' & ts' & ts2 & lo & hi & pos' & Ets & _ & _ & _ & _ & Hi)]; [congruence|]. rewrite E0 in Hs. injection Hs as <-.
    assert (Hne : w <> []) by (intros ->; simpl in Hlt; lia).
    assert (Hts : ts' = tg).
    { assert (Hl : length ts' = length tg).
      { pose proof (inv_len _ _ _ _ Hi) as [L1 L2]. rewrite Hstk' in L1. rewrite !app_length in *. cbn [length] in *. rewrite skipn_length in L1. pose proof (inv_len _ _ _ _ Hinv) as [L3 L4]. rewrite !app_length in *. lia. }
      symmetry. eapply app_len_inj; [exact Ets|congruence]. }
    subst ts'.
    assert (Hgg : g' = g).
    { pose proof (inv_twfs tix _ _ _ _ _ (md_len _ _ _ _ Hm) _ _ _ _ (or_introl Hne) Hi) as T1. pose proof (inv_twfs tix _ _ _ _ _ (md_len _ _ _ _ Hm) _ _ _ _ (or_introl Hne) Hinv) as T2.
      apply twfs_app_inv in T1 as (a1 & a2 & E1 & T1 & T1'). apply twfs_app_inv in T2 as (b1 & b2 & E2 & T2 & _).
      assert (E3 : tg = a1) by (eapply app_len_inj; [exact E1|]; pose proof (twfs_len _ _ _ _ _ T1'); apply (f_equal (@length _)) in E1; rewrite !app_length in E1; simpl in *; lia).
      assert (E4 : tg = b1) by (eapply app_len_inj; [exact E2|]; pose proof (twfs_len _ _ _ _ _ T2); lia).
      rewrite <- E3 in T1. rewrite <- E4 in T2. exact (twfs_fun _ _ _ _ T1 T2). }
    subst g'.
    assert (Hbad : lo = Nat.min h eh /\ hi = pos).
    { pose proof (inv_stk _ _ _ _ _ _ _ _ _ _ Hi) as Hk'. rewrite Hstk' in Hk'. inversion Hk' as [|st1 g0 ts0 s0 e Y0 t0 _ _ He0 _ E1 E2 E3]. apply app_inj_tail in E2 as [_ ->]. apply app_inj_tail in E3 as [_ ->]. destruct He0 as (_ & He0 & _). injection He0 as -> ->. auto. }
    destruct Hbad as [-> ->].
    assert (Hsyms : ps_syms s' = ps_syms (ps_read tix st)) by (apply (step_shape tix P st s' E0)).
    assert (Hbuf : ps_buf s' = (if (match d with [] => false | _ => true end) then tl (toks tix h (firstn (pos - h) (skipn h (ps_syms (ps_read tix st)))) ++ (TSym (tix x), pos) :: toks tix (S pos) (skipn (S pos) (ps_syms (ps_read tix st)))) else toks tix h (firstn (pos - h) (skipn h (ps_syms (ps_read tix st)))) ++ (TSym (tix x), pos) :: toks tix (S pos) (skipn (S pos) (ps_syms (ps_read tix st))))).
    { revert E0. unfold parse_step. cbv zeta. rewrite Eb0. fold p. rewrite read_state, Hact, read_rec, read_stack, Erec. rewrite put_back_ok by lia. rewrite HaE. intros E0. injection E0 as <-. reflexivity. }
    pose proof (put_back_ok tix (ps_syms (ps_read tix st)) h pos ltac:(lia)) as Hpb.
    destruct (rec_pos tix s P [] ss w Hm st _ _ pos s' _ _ pos' (TSym (tix x)) pos _ q (skipn (length d) (ps_stack st)) rc (match d with [] => false | _ => true end) h eh _ Hinv Hi Hsyms Eb0
      ltac:(rewrite read_rec, read_state; exact Erec) Hpb Hbuf) as [Hpos' _].
    split; [destruct d; rewrite Hpos' in Hi; exact Hi|]. split; [exact (rec_step _ _ _ _ _ Hinv Hrec E0)|exact Hstk'].
    Unshelve. all: try exact [].
  Qed.

  Lemma shift_turn st g ts pos x q : invat st g ts pos -> nth_error w pos = Some x -> decides rs sr p g (TSym (tix x)) (Some (Shift q)) -> rec_ok st ->
    exists st' q', step st = inl st' /\ invat st' (g ++ [TM (TSym (tix x))]) (ts ++ [Leaf pos]) (S pos) /\ rec_ok st' /\ ps_stack st' = (q', ETok (tix x) pos) :: ps_stack st.
  Proof.
    intros Hinv Hx Hd Hrec. assert (Hla : la_at tix w pos = TSym (tix x)) by (unfold la_at; rewrite Hx; reflexivity).
    destruct (cases tix s P [] ss w Hm _ _ _ _ Hinv) as (d0 & Hd0 & Hc). rewrite Hla in Hd0. assert (d0 = Some (Shift q)) by (eapply decides_det; eauto). subst d0.
    destruct Hc as (_ & _ & st' & Hs & Hi). rewrite Hla in Hi. exists st'.
    destruct (read_inv tix _ _ _ _ _ (md_len _ _ _ _ Hm) _ _ _ _ Hinv) as [_ (t0 & i0 & buf0 & Eb0 & Hcase)].
    destruct Hcase as [(x0 & Hx0 & -> & -> & Hlt0 & ->)|(_ & _ & Hp' & _)]; [|exfalso; assert (pos < length w) by (apply nth_error_Some; congruence); lia]. assert (x0 = x) by congruence. subst x0.
    pose proof (inv_state _ _ _ _ _ _ _ _ _ _ Hinv) as Hst. fold p in Hst.
    assert (Hact : act p (ps_state st) (TSym (tix x)) = Ok (Some (Shift q))).
    { destruct (act_state (gram s) (sx_start s) ss P Hcan _ _ (TSym (tix x)) Hst) as (d1 & Ha & Hdd). fold p in Ha. rewrite Ha. f_equal. eapply decides_det; eauto. }
    exists (ps_state st). split; auto. split; auto. split; [exact (rec_step _ _ _ _ _ Hinv Hrec Hs)|].
    unfold parse_step in Hs. cbv zeta in Hs. rewrite Eb0 in Hs. fold p in Hs. rewrite read_state, Hact, read_stack in Hs. injection Hs as <-. reflexivity.
  Qed.

  Definition bad_end (st : pstate N T) : Prop := ends step st Panic \/ exists e it, ends step st (Ok (RReducer e, it)).
  Lemma bad_reaches st st' : reaches step st st' -> bad_end st' -> bad_end st.
  Proof. intros Hr [H|(e & it & H)]; [left|right; exists e, it]; eapply reaches_ends; eauto. Qed.

  Lemma reduce_turn st d k r ts pos : invat st (d ++ r_rhs r) ts pos -> decides rs sr p (d ++ r_rhs r) (la_at tix w pos) (Some (Reduce k)) -> nth_error rs k = Some r -> rec_ok st ->
    bad_end st \/ exists ts1 ts2 args gen v st' q v' i, ts = ts1 ++ ts2 /\ length ts1 = length d /\ twfs tix rs w (r_rhs r) ts2 /\ gmap (ev (pr_gens P) w) ts2 = GOk args /\
      nth_error (pr_gens P) k = Some gen /\ gen args = GOk v /\ step st = inl st' /\ invat st' (d ++ [NT (r_lhs r)]) (ts1 ++ [Node k ts2]) pos /\ rec_ok st' /\
      ev (pr_gens P) w (Node k ts2) = GOk (NonTerminal v) /\
      i = first_index (map snd (rev (firstn (length (r_rhs r)) (ps_stack st)))) (length (ps_syms (ps_read tix st))) /\
      ps_stack st' = (q, ENon v' i) :: skipn (length (r_rhs r)) (ps_stack st).
  Proof.
    intros Hinv Hd Hr Hrec. destruct (cases tix s P [] ss w Hm _ _ _ _ Hinv) as (d0 & Hd0 & Hc). assert (d0 = Some (Reduce k)) by (eapply decides_det; eauto). subst d0.
    destruct Hc as [(r0 & _ & _ & E0 & _)|(r0 & dd & ts1 & ts2 & args & gen & Hr0 & Eg & _ & _ & Ets & Hl & Htw & Hgm & Hgen & Hc)].
    - left. left. apply ends_step. exact E0.
    - assert (r0 = r) by (unfold rs in *; congruence). subst r0. apply app_inv_tail in Eg. subst dd. destruct (gen args) as [v|e|] eqn:Eg.
      + right. destruct Hc as (st' & Hs & Hi).
        pose proof (inv_state _ _ _ _ _ _ _ _ _ _ Hinv) as Hst. fold p in Hst.
        destruct (read_inv tix _ _ _ _ _ (md_len _ _ _ _ Hm) _ _ _ _ Hinv) as [_ (t0 & i0 & buf0 & Eb0 & Hcase)].
        assert (Hla : la_at tix w pos = t0).
        { unfold la_at. destruct Hcase as [(x0 & Hx0 & -> & _)|(-> & _ & Hp' & _)]; [rewrite Hx0; auto|]. replace (nth_error w pos) with (@None T); auto. symmetry. apply nth_error_None. lia. }
        assert (Hact : act p (ps_state st) t0 = Ok (Some (Reduce k))).
        { destruct (act_state (gram s) (sx_start s) ss P Hcan _ _ t0 Hst) as (d1 & Ha & Hdd). fold p in Ha. rewrite Ha. f_equal. rewrite Hla in Hd. eapply decides_det; eauto. }
        assert (Hk : exists q v', ps_stack st' = (q, ENon v' (first_index (map snd (rev (firstn (length (r_rhs r)) (ps_stack st)))) (length (ps_syms (ps_read tix st))))) :: skipn (length (r_rhs r)) (ps_stack st)).
        { pose proof Hs as Hs'. unfold parse_step in Hs'. cbv zeta in Hs'. rewrite Eb0 in Hs'. fold p in Hs'. rewrite read_state, Hact, read_stack, (can_rules _ _ _ Hcan), Hr in Hs'.
          destruct (_ <? _); [discriminate|]. destruct (reduce_args _ _ _) as [args'| |]; try discriminate.
          destruct (nth_error (pr_gens P) k) as [g0|]; [|discriminate]. destruct (g0 args'); try discriminate. destruct (aget eqb _ (p_goto p)) as [row|]; [|discriminate].
          destruct (aget eqb (r_lhs r) row) as [q|]; [|discriminate]. injection Hs' as <-. cbn [ps_stack]. eauto. }
        destruct Hk as (q1 & v1 & Hk). exists ts1, ts2, args, gen, v, st', q1, v1. eexists.
        repeat (split; [solve [auto | exact (rec_step _ _ _ _ _ Hinv Hrec Hs)]|]). split; [|split; [reflexivity|exact Hk]].
        cbn [ev]. rewrite Hgm. cbn [gbind]. unfold call. rewrite Hgen, Eg. reflexivity.
      + left. right. destruct Hc as [it E0]. exists e, it. apply ends_step. exact E0.
      + left. left. apply ends_step. exact Hc.
  Qed.

  Lemma apart : errors_apart s.
  Proof.
    apply (token_apart s). intros r Hr a b E0. rewrite gram_eq in Hr. apply in_app_or in Hr as [Hr|[<-|[<-|[]]]].
    - exfalso. apply B_In in Hr as (_ & Hr & _). apply Hr. rewrite E0. apply in_or_app. simpl. auto.
    - exfalso. cbn in E0. destruct a as [|? [|? [|? [|? ?]]]]; discriminate.
    - cbn in E0. destruct a as [|? [|? [|? [|? ?]]]]; try discriminate. injection E0 as _ <-. eauto.
  Qed.
  Lemma all_stops st g ts pos : invat st g ts pos -> stops tix P st.
  Proof.
    apply (stops_all tix s P [] ss w Hm); auto.
    - apply (rstep_wf _ _ _ (md_fresh _ _ _ _ Hm) (cf_of s P [] ss Hm eq_refl) Hp).
    - apply apart.
  Qed.
  Lemma fold_upd (es : list (entry N)) h eh : Forall (fun e => idx e <> None) es -> snd (fold_left upd es (h, eh)) = eh.
  Proof. intros HF. revert h. induction HF as [|e es He _ IH]; intros h; auto. cbn [fold_left]. destruct e; cbn [upd idx] in *; try congruence; apply IH. Qed.
  Lemma fold_upd_last (es : list (entry N)) e i he : idx e = Some i -> fst (fold_left upd (es ++ [e]) he) = i.
  Proof. intros He. rewrite fold_left_app. cbn [fold_left]. destruct e; cbn in *; congruence. Qed.
  Lemma first_idx (e : entry N) i es d : idx e = Some i -> first_index (e :: es) d = i.
  Proof. destruct e; cbn; congruence. Qed.


  Section Segment.
    Variables (gm : list sym) (tg : list tree) (a b : nat).
    Hypothesis Hgm : okg gm.
    Hypothesis Htg : length tg = length gm.
    Variable x0 : T.
    Hypothesis Hab : a <= b.
    Hypothesis Hx0 : nth_error w b = Some x0.
    Hypothesis Hclose : tix x0 = cl.
    Hypothesis Hno : forall i x, a <= i -> i < b -> nth_error w i = Some x -> tix x <> op /\ tix x <> cl.
    Lemma Hend x : nth_error w b = Some x -> tix x = cl.
    Proof. congruence. Qed.
    Lemma Hblt : b < length w.
    Proof. apply nth_error_Some. congruence. Qed.
    Lemma Hbw : b <= length w.
    Proof. pose proof Hblt. lia. Qed.
    Lemma Ha : a < length w.
    Proof. pose proof Hblt. lia. Qed.
    Definition bottom (st : pstate N T) (d : list sym) : Prop :=
      d = [] \/ exists es e, map snd (firstn (length d) (ps_stack st)) = es ++ [e] /\ idx e = Some a /\ Forall (fun e => idx e <> None) es.
    Record D (st : pstate N T) (d : list sym) (td : list tree) (pos : nat) : Prop := {
      D_inv : invat st (gm ++ d) (tg ++ td) pos;
      D_base : Forall dsym d;
      D_clean : forallb clean td = true;
      D_lvs : flat_map leaves td = seq a (pos - a);
      D_le : a <= pos <= b;
      D_bot : bottom st d;
      D_rec : rec_ok st;
      D_begin : d = [] \/ exists y, nth_error w a = Some y /\ can_begin tix all X y;
      D_run : astar (gram s) (sx_start s) ss (gm, kinds tix (skipn a w)) (gm ++ d, kinds tix (skipn pos w)) }.

    Lemma D_len st d td pos : D st d td pos -> length td = length d.
    Proof. intros H. pose proof (inv_len _ _ _ _ (D_inv _ _ _ _ H)) as [_ L]. rewrite !app_length in L. lia. Qed.
    Lemma D_nil st d td pos : D st d td pos -> (d = [] <-> pos = a).
    Proof.
      intros H. pose proof (D_len _ _ _ _ H) as L. pose proof (D_lvs _ _ _ _ H) as Hl. pose proof (D_le _ _ _ _ H) as Hle. split.
      - intros ->. destruct td; [|discriminate]. simpl in Hl. destruct (pos - a) eqn:Ep; [lia|discriminate].
      - intros ->. rewrite Nat.sub_diag in Hl. simpl in Hl. destruct d as [|Y d]; auto. exfalso.
        assert (Hne : w <> []) by (intros E0; pose proof Ha as Ha; rewrite E0 in Ha; simpl in Ha; lia).
        pose proof (inv_twfs tix _ _ _ _ _ (md_len _ _ _ _ Hm) _ _ _ _ (or_introl Hne) (D_inv _ _ _ _ H)) as T1. apply twfs_app_inv in T1 as (b1 & b2 & E2 & T1 & T2).
        assert (E3 : tg = b1) by (eapply app_len_inj; [exact E2|]; pose proof (twfs_len _ _ _ _ _ T1); lia). rewrite E3 in E2. apply app_inv_head in E2. subst b2.
        apply (proj2 (clean_leaves w)) in T2; [apply T2; auto|apply (D_clean _ _ _ _ H)|discriminate].
    Qed.

    Lemma kinds_skip i x : nth_error w i = Some x -> kinds tix (skipn i w) = TSym (tix x) :: kinds tix (skipn (S i) w).
    Proof. intros Hx. rewrite (skipn_cons _ _ _ Hx). reflexivity. Qed.
    Lemma la_fst pos : fst_of (kinds tix (skipn pos w)) TEoi = la_at tix w pos.
    Proof.
      unfold la_at. destruct (nth_error w pos) as [x|] eqn:Ex; [rewrite (kinds_skip _ _ Ex); auto|]. apply nth_error_None in Ex. rewrite skipn_all2 by auto. reflexivity.
    Qed.

    (** what one turn does before the end of the statement *)
    Lemma D_shift st d td pos x q : D st d td pos -> nth_error w pos = Some x -> pos < b -> decides rs sr p (gm ++ d) (TSym (tix x)) (Some (Shift q)) ->
      exists st', step st = inl st' /\ D st' (d ++ [TM (TSym (tix x))]) (td ++ [Leaf pos]) (S pos).
    Proof.
      intros H Hx Hlt Hd. destruct (shift_turn _ _ _ _ _ _ (D_inv _ _ _ _ H) Hx Hd (D_rec _ _ _ _ H)) as (st' & q' & Hs & Hi & Hr & Hk). exists st'. split; auto.
      pose proof (D_le _ _ _ _ H) as Hle. destruct Hd as [Hw _].
      destruct (Hno pos x ltac:(lia) Hlt Hx) as [Hn1 Hn2].
      destruct (wants_base gm d _ Hgm Hw ltac:(discriminate) ltac:(congruence) ltac:(congruence)) as [Hbs Hf].
      constructor; auto.
      - rewrite !app_assoc. exact Hi.
      - apply Forall_app. split; [apply (D_base _ _ _ _ H)|auto].
      - rewrite forallb_app, (D_clean _ _ _ _ H). reflexivity.
      - rewrite flat_map_app, (D_lvs _ _ _ _ H). replace (S pos - a) with (pos - a + 1) by lia. rewrite seq_app. cbn [flat_map leaves seq app]. do 2 f_equal. lia.
      - lia.
      - right. unfold bottom. rewrite app_length, Nat.add_1_r. rewrite Hk. cbn [firstn map snd]. destruct (D_bot _ _ _ _ H) as [E0|(es & e & E1 & E2 & E3)].
        + exists [], (ETok (tix x) pos). rewrite E0. cbn. split; auto. split; auto. f_equal. apply (proj1 (D_nil _ _ _ _ H) E0).
        + exists (ETok (tix x) pos :: es), e. rewrite E1. split; auto. split; auto. constructor; auto. discriminate.
      - right. destruct (D_begin _ _ _ _ H) as [E0|E0]; auto. exists x. pose proof (proj1 (D_nil _ _ _ _ H) E0) as Ep. rewrite <- Ep. split; auto. apply firsts_begin. auto.
      - eapply astar_trans; [apply (D_run _ _ _ _ H)|]. rewrite (kinds_skip _ _ Hx), app_assoc. eapply as_step; [|apply as_refl]. constructor. exact Hw.
    Qed.
    Lemma D_reduce st d td pos k : D st d td pos -> pos < length w -> decides rs sr p (gm ++ d) (la_at tix w pos) (Some (Reduce k)) ->
      bad_end st \/ exists st' d' td', step st = inl st' /\ D st' d' td' pos.
    Proof.
      intros H Hlt Hd. pose proof Hd as (_ & _ & Hk & Hc & _).
      destruct (complete_cases gm d k _ Hgm (D_base _ _ _ _ H) Hk Hc) as (Hkb & r & d1 & Hr & E0 & Hb1).
      pose proof (D_inv _ _ _ _ H) as Hinv. rewrite E0, app_assoc in Hinv, Hd.
      destruct (reduce_turn _ _ _ _ _ _ Hinv Hd Hr (D_rec _ _ _ _ H)) as [Hbad|(ts1 & ts2 & args & gen & v & st' & q & v' & i & Ets & Hl & Htw & _ & _ & _ & Hs & Hi & Hrec & _ & Ei & Hk')]; [left; auto|right].
      assert (Hts : exists td1, ts1 = tg ++ td1 /\ td = td1 ++ ts2).
      { assert (Etg : tg = firstn (length tg) ts1).
        { assert (tg ++ td = firstn (length tg) ts1 ++ (skipn (length tg) ts1 ++ ts2)) as E1 by (rewrite app_assoc, firstn_skipn; auto).
          eapply app_len_inj; [exact E1|]. rewrite firstn_length. rewrite app_length in Hl. lia. }
        exists (skipn (length tg) ts1). assert (E1 : ts1 = tg ++ skipn (length tg) ts1) by (rewrite Etg at 1; symmetry; apply firstn_skipn). split; auto.
        rewrite E1, <- app_assoc in Ets. apply app_inv_head in Ets. auto. }
      destruct Hts as (td1 & E1 & E2). exists st', (d1 ++ [NT (r_lhs r)]), (td1 ++ [Node k ts2]). split; auto.
      assert (Hrne : r_rhs r <> []) by (apply (rule_base _ _ Hkb) in Hr; apply B_In in Hr; tauto).
      constructor; auto.
      - rewrite !app_assoc, <- E1. exact Hi.
      - apply Forall_app. split; auto. constructor; auto. unfold dsym. repeat split; discriminate.
      - pose proof (D_clean _ _ _ _ H) as Hcl. rewrite E2, forallb_app in Hcl. apply andb_true_iff in Hcl as [Hc1 Hc2]. rewrite forallb_app, Hc1. cbn [forallb clean]. rewrite Hc2. reflexivity.
      - rewrite flat_map_app. cbn [flat_map leaves]. rewrite app_nil_r, <- flat_map_app, <- E2. apply (D_lvs _ _ _ _ H).
      - apply (D_le _ _ _ _ H).
      - right. unfold bottom. rewrite app_length, Nat.add_1_r, Hk'. cbn [firstn map snd]. destruct (D_bot _ _ _ _ H) as [En|(es & e & F1 & F2 & F3)].
        + exfalso. rewrite En in E0. destruct d1; [destruct (r_rhs r); [congruence|discriminate]|discriminate].
        + rewrite E0, app_length, Nat.add_comm, firstn_plus, map_app in F1.
          destruct d1 as [|Y d1].
          * cbn [length firstn map] in *. rewrite app_nil_r in F1. exists [], (ENon v' i). split; auto. split; [|constructor]. cbn. f_equal. rewrite Ei, map_rev, F1, rev_app_distr. cbn [rev app]. apply first_idx. auto.
          * assert (Hsk : exists es2, map snd (firstn (length (Y :: d1)) (skipn (length (r_rhs r)) (ps_stack st))) = es2 ++ [e] /\ Forall (fun e => idx e <> None) es2).
            { remember (map snd (firstn (length (Y :: d1)) (skipn (length (r_rhs r)) (ps_stack st)))) as l eqn:El.
              assert (Hll : l <> []).
              { rewrite El. intros E3. apply (f_equal (@length _)) in E3. rewrite map_length, firstn_length, skipn_length in E3. pose proof (inv_len _ _ _ _ (D_inv _ _ _ _ H)) as [L _]. rewrite E0, !app_length in L. cbn [length] in E3, L. lia. }
              destruct l as [|e0 l _] using rev_ind; [congruence|]. rewrite app_assoc in F1. apply app_inj_tail in F1 as [F1 ->]. exists l. split; auto. rewrite <- F1 in F3. apply Forall_app in F3. tauto. }
            destruct Hsk as (es2 & G1 & G2). exists (ENon v' i :: es2), e. rewrite G1. split; auto. split; auto. constructor; auto. discriminate.
      - destruct (D_begin _ _ _ _ H) as [En|Hbg]; auto. exfalso. rewrite En in E0. destruct d1; [destruct (r_rhs r); [congruence|discriminate]|discriminate].
      - eapply astar_trans; [apply (D_run _ _ _ _ H)|]. rewrite E0, app_assoc, app_assoc. eapply as_step; [|apply as_refl]. eapply a_red; eauto. rewrite la_fst, <- app_assoc, <- E0. exact Hc.
    Qed.

    Lemma D_phase : forall m st d td pos, D st d td pos -> loop step m st <> OutOfFuel ->
      (exists st' t x, reaches step st st' /\ D st' [NT X] [t] b /\ nth_error w b = Some x) \/
      (exists st' d' td' pos', reaches step st st' /\ D st' d' td' pos' /\ decides rs sr p (gm ++ d') (la_at tix w pos') None) \/
      bad_end st.
    Proof.
      induction m as [|m IH]; intros st d td pos H Hl; [simpl in Hl; congruence|].
      destruct (cases tix s P [] ss w Hm _ _ _ _ (D_inv _ _ _ _ H)) as (d0 & Hd & _). fold rs sr p in Hd. pose proof (D_le _ _ _ _ H) as Hle.
      assert (Hnext : forall st' d' td' pos', step st = inl st' -> D st' d' td' pos' ->
        (exists st' t x, reaches step st st' /\ D st' [NT X] [t] b /\ nth_error w b = Some x) \/
        (exists st' d' td' pos', reaches step st st' /\ D st' d' td' pos' /\ decides rs sr p (gm ++ d') (la_at tix w pos') None) \/ bad_end st).
      { intros st' d' td' pos' Hs HD. cbn [loop] in Hl. rewrite Hs in Hl. pose proof (reaches_step _ _ _ Hs) as Hr.
        destruct (IH _ _ _ _ HD Hl) as [(s1 & t1 & x1 & R1 & R2)|[(s1 & d1 & td1 & p1 & R1 & R2)|R1]].
        - left. exists s1, t1, x1. split; auto. eapply reaches_trans; eauto.
        - right. left. exists s1, d1, td1, p1. split; auto. eapply reaches_trans; eauto.
        - right. right. eapply bad_reaches; eauto. }
      destruct d0 as [d0|]; [|right; left; exists st, d, td, pos; split; [apply reaches_refl|auto]].
      destruct (nth_error w pos) as [x|] eqn:Ex.
      - assert (Hla : la_at tix w pos = TSym (tix x)) by (unfold la_at; rewrite Ex; reflexivity). assert (Hlt : pos < length w) by (apply nth_error_Some; congruence).
        destruct d0 as [q|k|].
        + rewrite Hla in Hd. destruct (Nat.eq_dec pos b) as [->|Hne].
          * left. pose proof (Hend _ Ex) as Hx. destruct Hd as [Hw _]. rewrite Hx in Hw. pose proof (wants_close _ _ Hgm (D_base _ _ _ _ H) Hw) as Ed.
            pose proof (D_len _ _ _ _ H) as L. rewrite Ed in L. destruct td as [|t [|t' td]]; try discriminate. rewrite Ed in H. exists st, t, x. split; [apply reaches_refl|]. auto.
          * destruct (D_shift _ _ _ _ _ _ H Ex ltac:(lia) Hd) as (st' & Hs & HD). eapply Hnext; eauto.
        + destruct (D_reduce _ _ _ _ _ H Hlt Hd) as [Hb'|(st' & d' & td' & Hs & HD)]; [auto|]. eapply Hnext; eauto.
        + exfalso. destruct Hd as (_ & Hd & _). congruence.
      - exfalso. apply nth_error_None in Ex. pose proof Hblt. lia.
    Qed.

    Lemma wants_end : wants rs sr (gm ++ [NT X]) Close.
    Proof. destruct Hgm as (g0 & t & _ & Hv & _). exists nb, 2, t, r1. split; [|split; [exact nth_1|reflexivity]]. eapply valid_goto; [exact Hv|exact nth_1|reflexivity]. Qed.
    Lemma astar_len c c' : astar (gram s) (sx_start s) ss c c' -> length (snd c') <= length (snd c).
    Proof. induction 1 as [|c c1 c2 Hs _ IH]; auto. destruct Hs; cbn [snd length] in *; lia. Qed.
    Lemma stuck_not st d td pos x : D st d td pos -> decides rs sr p (gm ++ d) (la_at tix w pos) None -> nth_error w b = Some x -> ~ is_stmt tix all X (firstn (b - a) (skipn a w)).
    Proof.
      intros H Hd Hx Hst. pose proof (Hend _ Hx) as Hs. pose proof (D_le _ _ _ _ H) as Hle.
      assert (Ek : kinds tix (skipn a w) = kinds tix (firstn (b - a) (skipn a w)) ++ kinds tix (skipn b w)).
      { unfold kinds. rewrite <- map_app. f_equal. replace (skipn b w) with (skipn (b - a) (skipn a w)); [symmetry; apply firstn_skipn|]. rewrite skipn_plus. f_equal. lia. }
      pose proof (stmt_star gm _ (kinds tix (skipn b w)) Hgm Hst) as Hrun. rewrite la_fst in Hrun. unfold la_at in Hrun. rewrite Hx, Hs in Hrun. specialize (Hrun eq_refl). rewrite <- Ek in Hrun.
      assert (Heq : (gm ++ [NT X], kinds tix (skipn b w)) <> (gm ++ d, kinds tix (skipn pos w))).
      { intros E0. injection E0 as E1 E2. rewrite <- la_fst, <- E2, la_fst, <- E1 in Hd. unfold la_at in Hd. rewrite Hx, Hs in Hd. destruct Hd as [Hd _]. apply Hd. apply wants_end. }
      assert (Hn : forall c c', astar (gram s) (sx_start s) ss c c' -> c = c' \/ exists c1, astep (gram s) (sx_start s) ss c c1 /\ astar (gram s) (sx_start s) ss c1 c') by (intros c c' []; eauto).
      destruct (astar_det _ _ _ (cf_of s P [] ss Hm eq_refl) _ _ _ Hrun (D_run _ _ _ _ H)) as [C|C]; apply Hn in C as [C|(c1 & C1 & C2)]; try congruence.
      - remember (gm ++ [NT X], kinds tix (skipn b w)) as c0 eqn:Ec0. destruct C1 as [g t v Hw|d1 k r v Hr Hk Hc]; injection Ec0 as E1 Ev.
        + apply astar_len in C2. cbn [snd] in C2.
          assert (L : length (t :: v) = length w - b) by (rewrite Ev; unfold kinds; rewrite map_length, skipn_length; auto).
          unfold kinds in C2. rewrite map_length, skipn_length in C2. cbn [length] in L. lia.
        + assert (Hc' : complete rs sr (gm ++ [NT X]) k (TSym cl)).
          { rewrite E1, Ev in Hc. rewrite la_fst in Hc. unfold la_at in Hc. rewrite Hx, Hs in Hc. exact Hc. }
          destruct (cf_of s P [] ss Hm eq_refl _ _ _ Hk Hc') as [Hf _]. apply Hf. apply wants_end.
      - eapply (stuck_step (gram s) (sx_start s) ss P (gm ++ d)); [|exact C1]. rewrite la_fst. exact Hd.
    Qed.

    (** after the error symbol *)
    Lemma err_items0 g it : valid rs sr g it -> forall g', g = g' ++ [TM TErr] -> i_rule it = nb + 1 /\ i_pos it = 2.
    Proof.
      induction 1 as [|g k q b0 r Z H IH Hr HZ|g k q b0 r A k' r' t H IH Hr HA Hr' Hl Hf]; cbn [i_rule i_pos i_la] in *; intros g' E0.
      - destruct g'; discriminate.
      - apply app_inj_tail in E0 as [_ ->]. assert (k = nb + 1) by (eapply err_rule; eauto; eapply nth_error_In; eauto). subst k. split; auto. rewrite nth_2 in Hr. injection Hr as <-.
        destruct q as [|[|[|q]]]; cbn in HZ; try discriminate; auto. destruct q; discriminate.
      - exfalso. destruct (IH _ E0) as [-> ->]. pose proof (eq_trans (eq_sym Hr) nth_2) as E9. injection E9 as ->. discriminate.
    Qed.
    Lemma err_items it : valid rs sr (gm ++ [TM TErr]) it -> i_rule it = nb + 1 /\ i_pos it = 2.
    Proof. intros H. exact (err_items0 _ _ H _ eq_refl). Qed.
    Lemma err_wants Z : wants rs sr (gm ++ [TM TErr]) Z <-> Z = Close.
    Proof.
      split.
      - intros (k & q & b0 & r & Hv & Hr & Hq). apply err_items in Hv as [Ek Eq]. cbn in Ek, Eq. subst k q. rewrite nth_2 in Hr. injection Hr as <-. cbn in Hq. congruence.
      - intros ->. destruct Hgm as (g0 & t & _ & _ & Hv). exists (nb + 1), 2, t, r2. split; [|split; [exact nth_2|reflexivity]]. eapply valid_goto; [exact Hv|exact nth_2|reflexivity].
    Qed.
    Lemma err_decides t d0 : decides rs sr p (gm ++ [TM TErr]) t d0 -> t <> TSym cl -> d0 = None.
    Proof.
      intros Hd Ht. destruct d0 as [[q|k|]|]; auto; exfalso; cbn in Hd.
      - destruct Hd as [Hw _]. apply err_wants in Hw. congruence.
      - destruct Hd as (_ & _ & _ & (r & Hr & Hv) & _). apply err_items in Hv as [Ek Eq]. cbn in Ek, Eq. subst k. pose proof (eq_trans (eq_sym Hr) nth_2) as E9. injection E9 as ->. discriminate.
      - destruct Hd as (_ & _ & Hacc). apply (accepting_g _ _ _ (md_fresh _ _ _ _ Hm)) in Hacc. apply (app_inj_tail gm []) in Hacc as [_ Hacc]. discriminate.
    Qed.
    Lemma top_err st g ts lo hi pos : invat st (g ++ [TM TErr]) (ts ++ [Bad lo hi]) pos -> exists q st1, ps_stack st = (q, EErr lo hi) :: st1.
    Proof.
      intros Hinv. pose proof (inv_stk _ _ _ _ _ _ _ _ _ _ Hinv) as Hk. inversion Hk as [E0|st1 g0 ts0 s0 e Y0 t0 Hk0 Hs0 He0 _ E1 E2 E3]; [destruct g; discriminate|].
      apply app_inj_tail in E2 as [_ E2]. apply app_inj_tail in E3 as [_ E3]. rewrite E2, E3 in He0.
      destruct e as [v i|k i|lo' hi'|]; cbn [ent] in He0; [destruct He0 as ([A0 He0] & _); discriminate|destruct He0 as [He0 _]; discriminate| |destruct He0].
      destruct He0 as (_ & He0 & _). injection He0 as <- <-. eauto.
    Qed.
    Lemma K_skip : forall n st lo hi pos, b - pos = n -> invat st (gm ++ [TM TErr]) (tg ++ [Bad lo hi]) pos -> rec_ok st -> lo <= pos -> a <= pos <= b ->
      exists st', reaches step st st' /\ invat st' (gm ++ [TM TErr]) (tg ++ [Bad lo (if pos =? b then hi else b - 1)]) b /\ rec_ok st'.
    Proof.
      induction n as [|n IH]; intros st lo hi pos En Hinv Hrec Hlo Hpos.
      - assert (pos = b) by lia. subst pos. rewrite Nat.eqb_refl. exists st. split; [apply reaches_refl|auto].
      - assert (Hlt : pos < length w) by (pose proof Hblt; lia). destruct (nth_error w pos) as [x|] eqn:Ex; [|apply nth_error_None in Ex; lia].
        assert (Hla : la_at tix w pos = TSym (tix x)) by (unfold la_at; rewrite Ex; reflexivity).
        assert (Hns : TSym (tix x) <> TSym cl) by (intros E0; injection E0 as E0; destruct (Hno pos x ltac:(lia) ltac:(lia) Ex); tauto).
        destruct (cases tix s P [] ss w Hm _ _ _ _ Hinv) as (d0 & Hd & _). fold rs sr p in Hd. pose proof Hd as Hd'. rewrite Hla in Hd'. apply err_decides in Hd'; auto. subst d0.
        assert (Hw : forall d1 d2 : list sym, [TM TErr] = d1 ++ d2 -> d1 <> [] -> ~ wants rs sr (gm ++ d1) (TM TErr)).
        { intros d1 d2 E0 Hne Hw. destruct d1 as [|Y [|Y' d1]]; [congruence| |destruct d1; discriminate]. injection E0 as <- _. apply err_wants in Hw. discriminate. }
        destruct (error_turn st gm [TM TErr] tg [Bad lo hi] pos Hinv Hgm Htg Hlt Hd Hw Hrec) as (st' & q & h & eh & Ef & Hs & Hi & Hr' & _).
        destruct (top_err _ _ _ _ _ _ Hinv) as (q0 & st1 & Hk). rewrite Hk in Ef. cbn [firstn length map snd fold_left upd fst] in Ef. injection Ef as <- <-.
        rewrite Nat.min_r in Hi by auto. cbn [Nat.min] in Hi. rewrite Nat.min_id in Hi.
        destruct (IH st' lo pos (S pos) ltac:(lia) Hi Hr' ltac:(lia) ltac:(lia)) as (st2 & R1 & R2 & R3). exists st2. split; [eapply reaches_trans; [apply reaches_step; eauto|auto]|]. split; auto.
        replace (pos =? b) with false by (symmetry; apply Nat.eqb_neq; lia). destruct (Nat.eqb_spec (S pos) b) as [E4|E4]; auto. replace (b - 1) with pos by lia. auto.
    Qed.

    Lemma slice_two i (x : T) y : nth_error w i = Some y -> nth_error w (S i) = Some x -> firstn 2 (skipn i w) = [y; x].
    Proof. intros H1 H2. rewrite (skipn_cons _ _ _ H1), (skipn_cons _ _ _ H2). reflexivity. Qed.
    Lemma seg_error st d td pos : D st d td pos -> decides rs sr p (gm ++ d) (la_at tix w pos) None ->
      exists st' hi, reaches step st st' /\ invat st' (gm ++ [TM TErr]) (tg ++ [Bad a hi]) b /\ rec_ok st' /\
        (forall x, nth_error w b = Some x -> reported tix all X (firstn (b - a) (skipn a w)) x (firstn (S hi - a) (skipn a w))).
    Proof.
      intros H Hd. pose proof (D_le _ _ _ _ H) as Hle. pose proof Ha as Ha. pose proof Hbw as Hbw. assert (Hlt : pos < length w) by (pose proof Hblt; lia).
      assert (Hw : forall d1 d2 : list sym, d = d1 ++ d2 -> d1 <> [] -> ~ wants rs sr (gm ++ d1) (TM TErr)).
      { intros d1 d2 E0 Hne (k & q & b0 & r & Hv & Hr & Hq). assert (Hb1 : Forall dsym d1) by (pose proof (D_base _ _ _ _ H) as Hb1; rewrite E0 in Hb1; apply Forall_app in Hb1; tauto).
        destruct (wants_err gm d1 _ _ _ _ Hgm Hb1 Hv Hr Hq). congruence. }
      destruct (error_turn st gm d tg td pos (D_inv _ _ _ _ H) Hgm Htg Hlt Hd Hw (D_rec _ _ _ _ H)) as (st' & q & h & eh & Ef & Hs & Hi & Hr' & _).
      destruct (nth_error w a) as [y|] eqn:Ey; [|apply nth_error_None in Ey; lia].
      assert (Hu2 : a + 2 <= b -> forall x, reported tix all X (firstn (b - a) (skipn a w)) x (firstn (b - a) (skipn a w))).
      { intros H2 x. remember (firstn (b - a) (skipn a w)) as u eqn:Eu. assert (Lu : length u = b - a) by (rewrite Eu, firstn_length, skipn_length; lia).
        destruct u as [|y0 [|z0 u]]; cbn [length] in Lu; try lia. apply reported_all. }
      destruct d as [|Y d].
      - assert (Epos : pos = a) by (apply (D_nil _ _ _ _ H); auto). subst pos. cbn [firstn length map fold_left] in Ef. injection Ef as <- <-. rewrite Nat.min_id in Hi.
        destruct (K_skip _ st' a a a eq_refl Hi Hr' ltac:(lia) ltac:(lia)) as (st2 & R1 & R2 & R3). exists st2. eexists. split; [eapply reaches_trans; [apply reaches_step; eauto|exact R1]|]. split; [exact R2|]. split; auto.
        intros x Hx. destruct (Nat.eqb_spec a b) as [E0|E0].
        + rewrite <- E0, Nat.sub_diag. replace (S a - a) with 1 by lia. rewrite (skipn_cons _ _ _ Ey). cbn [firstn]. rewrite <- E0 in Hx. assert (y = x) by congruence. subst y. constructor.
        + replace (S (b - 1) - a) with (b - a) by lia. destruct (Nat.eq_dec b (S a)) as [E1|E1]; [|apply Hu2; lia].
          rewrite E1. replace (S a - a) with 1 by lia. rewrite (skipn_cons _ _ _ Ey). cbn [firstn]. apply reported_one.
          intros Hbg. apply (begin_decides gm y Hgm Hbg). rewrite app_nil_r in Hd. unfold la_at in Hd. rewrite Ey in Hd. exact Hd.
      - destruct (D_bot _ _ _ _ H) as [E0|(es & e & E1 & E2 & E3)]; [discriminate|]. rewrite E1 in Ef.
        assert (Eh : h = a) by (pose proof (fold_upd_last es e a (pos, pos) E2) as F; rewrite Ef in F; auto).
        assert (Eeh : eh = pos) by (assert (HF : Forall (fun e => idx e <> None) (es ++ [e])) by (apply Forall_app; split; auto; constructor; auto; congruence); pose proof (fold_upd _ pos pos HF) as F; rewrite Ef in F; auto).
        rewrite Eh, Eeh in Hi. rewrite !(Nat.min_l a pos) in Hi by lia.
        assert (Hpa : pos <> a) by (intros E0; apply (D_nil _ _ _ _ H) in E0; discriminate).
        destruct (K_skip _ st' a pos (S a) eq_refl Hi Hr' ltac:(lia) ltac:(lia)) as (st2 & R1 & R2 & R3). exists st2. eexists. split; [eapply reaches_trans; [apply reaches_step; eauto|exact R1]|]. split; [exact R2|]. split; auto.
        intros x Hx. destruct (Nat.eqb_spec (S a) b) as [E0|E0].
        + assert (Epos : pos = S a) by lia. rewrite Epos, <- E0. replace (S a - a) with 1 by lia. replace (S (S a) - a) with 2 by lia. rewrite <- E0 in Hx.
          rewrite (slice_two a x y Ey Hx), (skipn_cons _ _ _ Ey). cbn [firstn]. apply reported_end.
          destruct (D_begin _ _ _ _ H) as [Ed|(y' & Ey' & Hbg)]; [discriminate|]. assert (y' = y) by congruence. subst y'. auto.
        + replace (S (b - 1) - a) with (b - a) by lia. apply Hu2. lia.
    Qed.
  End Segment.
  (** ** The whole input *)
  Hypothesis Hnc : ~ cyclic (gram s) (sx_start s).
  Notation rd := (reads tix base X Gr op cl start g1 g2).
  Notation rds := (readss tix base X Gr op cl start g1 g2).
  Lemma skip_at {A} (l u z : list A) a : skipn a l = u ++ z -> skipn (a + length u) l = z.
  Proof. intros H. rewrite <- skipn_plus, H, skipn_app, Nat.sub_diag, skipn_all. reflexivity. Qed.
  Lemma skip_head {A} (l z : list A) x a : skipn a l = x :: z -> nth_error l a = Some x /\ skipn (S a) l = z.
  Proof. intros H. split; [rewrite <- (Nat.add_0_r a), <- nth_skip, H; reflexivity|]. change (x :: z) with ([x] ++ z) in H. apply skip_at in H. rewrite Nat.add_1_r in H. auto. Qed.
  Lemma la_rest a z t : skipn a w = z -> fst_of (kinds tix z) TEoi = t -> la_at tix w a = t.
  Proof.
    intros <- <-. unfold la_at. destruct (nth_error w a) as [x|] eqn:Ex; [rewrite (skipn_cons _ _ _ Ex); auto|]. apply nth_error_None in Ex. rewrite skipn_all2 by auto. reflexivity.
  Qed.
  Lemma gens_nth j : j < 2 -> nth_error (pr_gens P) (nb + j) = nth_error [g1; g2] j.
  Proof.
    intros Hj. rewrite (md_gens _ _ _ _ Hm). unfold gens, s, bracket_syntax. cbn [sx_rules]. rewrite map_app, <- app_assoc, nth_error_app2; rewrite map_length; fold nb; [|lia]. replace (nb + j - nb) with j by lia.
    cbn [map app cr_gen]. destruct j as [|[|j]]; try reflexivity. lia.
  Qed.
  Lemma tok_turn st g ts b x k : invat st g ts b -> wants rs sr g (TM (TSym k)) -> nth_error w b = Some x -> tix x = k -> rec_ok st ->
    exists st', step st = inl st' /\ invat st' (g ++ [TM (TSym k)]) (ts ++ [Leaf b]) (S b) /\ rec_ok st'.
  Proof.
    intros Hinv Hw Hx Hs Hrec. destruct (cases tix s P [] ss w Hm _ _ _ _ Hinv) as (d0 & Hd & _). fold rs sr p in Hd. unfold la_at in Hd. rewrite Hx in Hd.
    destruct d0 as [[q|k'|]|]; try (exfalso; destruct Hd as [Hd _]; rewrite Hs in Hd; contradiction).
    destruct (shift_turn _ _ _ _ _ _ Hinv Hx Hd Hrec) as (st' & q' & H1 & H2 & H3 & _). rewrite Hs in H2. exists st'. auto.
  Qed.
  Lemma gmap_cons (t : tree) ts a0 l : ev (pr_gens P) w t = GOk a0 -> gmap (ev (pr_gens P) w) ts = GOk l -> gmap (ev (pr_gens P) w) (t :: ts) = GOk (a0 :: l).
  Proof. intros H1 H2. cbn [gmap]. rewrite H1. cbn [gbind]. rewrite H2. reflexivity. Qed.
  (** the reduction of a rule whose symbols are read *)
  Lemma rule_turn st g ts ts2 k r gen args v pos : valid rs sr g (mk_item k 0 (la_at tix w pos)) -> nth_error rs k = Some r -> k <> sr -> length ts = length g ->
    invat st (g ++ r_rhs r) (ts ++ ts2) pos -> rec_ok st -> gmap (ev (pr_gens P) w) ts2 = GOk args -> nth_error (pr_gens P) k = Some gen -> gen args = GOk v ->
    bad_end st \/ exists st', step st = inl st' /\ rec_ok st' /\ invat st' (g ++ [NT (r_lhs r)]) (ts ++ [Node k ts2]) pos /\ ev (pr_gens P) w (Node k ts2) = GOk (NonTerminal v).
  Proof.
    intros Hv Hr Hk Hl Hinv Hrec Hgm Hgen Hgv.
    assert (Hc : complete rs sr (g ++ r_rhs r) k (la_at tix w pos)) by (eapply valid_complete; eauto).
    destruct (cases tix s P [] ss w Hm _ _ _ _ Hinv) as (d0 & Hd & _). fold rs sr p in Hd. pose proof Hd as Hd'.
    apply (complete_decides _ _ _ _ Hc Hk) in Hd'.
    2: { intros Et Ha. rewrite Et in Hc. apply Hnc. apply (early_cyc s P [] ss Hm). exists (g ++ r_rhs r), k. auto. }
    subst d0. destruct (reduce_turn _ _ _ _ _ _ Hinv Hd Hr Hrec) as [Hbad|(ts1 & ts3 & args' & gen' & v0 & st' & q & v' & i & Ets & Hl1 & Htw & Hgm' & Hgen' & Hv0 & Hs & Hi & Hrec' & Hev & _)]; [left; auto|right].
    assert (E1 : ts = ts1) by (eapply app_len_inj; [exact Ets|congruence]). rewrite <- E1 in Ets. apply app_inv_head in Ets. rewrite <- Ets in Hgm', Hi, Hev. rewrite <- E1 in Hi.
    exists st'. split; auto. split; auto. split; auto. assert (args' = args) by congruence. subst args'. assert (gen' = gen) by congruence. subst gen'. assert (v0 = v) by congruence. subst v0. exact Hev.
  Qed.

  (** what is read is not empty, and begins as its symbol may begin *)
  Lemma in_rl_1 : In r1 rs.
  Proof. eapply nth_error_In. exact nth_1. Qed.
  Lemma reads_first : (forall Z u a0, rd Z u a0 -> exists x u', u = x :: u' /\ forall l, firsts rs (Z :: l) (TSym (tix x))) /\
    (forall l u args, rds l u args -> l <> [] -> exists x u', u = x :: u' /\ firsts rs l (TSym (tix x))).
  Proof.
    assert (Hg : forall o l, tix o = op -> firsts rs (NT Gr :: l) (TSym (tix o))).
    { intros o l Ho. change Gr with (r_lhs r1). apply firsts_NT; [apply in_rl_1|]. rewrite Ho. exists [NT X; Close]. constructor. }
    apply reads_readss_ind.
    - intros x. exists x, []. split; auto. intros l. exists l. constructor.
    - intros r u args v Hr _ IH _. assert (Hin : In (cr_rule r) B) by (apply in_map; auto). destruct (IH (proj1 (B_In _ Hin))) as (x & u' & -> & Hf). exists x, u'. split; auto.
      intros l. apply firsts_NT; auto. rewrite rs_eq. apply in_or_app. auto.
    - intros o u c a0 v Ho _ _ _ _. exists o, (u ++ [c]). split; auto.
    - intros o u c sl v Ho _ _ _ _ _. exists o, (u ++ [c]). split; auto.
    - congruence.
    - intros Z l u u' a0 args _ (x & u0 & -> & Hf) _ _ _. exists x, (u0 ++ u'). split; auto.
  Qed.

  Definition goes (st : pstate N T) g ts a (l : list sym) n (Q : list tree -> Prop) : Prop :=
    (exists st' ts', reaches step st st' /\ rec_ok st' /\ invat st' (g ++ l) (ts ++ ts') (a + n) /\ Q ts') \/ bad_end st.

  Lemma okg_of g k q b r la : valid rs sr g (mk_item k q b) -> nth_error rs k = Some r -> nth_error (r_rhs r) q = Some (NT Gr) -> firsts rs (skipn (S q) (r_rhs r) ++ [TM b]) la ->
    okg (g ++ [Open]) /\ valid rs sr g (mk_item nb 0 la) /\ valid rs sr g (mk_item (nb + 1) 0 la).
  Proof.
    intros Hv Hr Hq Hf. assert (V1 : valid rs sr g (mk_item nb 0 la)) by (eapply valid_closure; [exact Hv|exact Hr|exact Hq|exact nth_1|reflexivity|exact Hf]).
    assert (V2 : valid rs sr g (mk_item (nb + 1) 0 la)) by (eapply valid_closure; [exact Hv|exact Hr|exact Hq|exact nth_2|reflexivity|exact Hf]).
    split; auto. exists g, la. split; auto. split; [exact (valid_goto _ _ _ _ _ _ _ _ V1 nth_1 eq_refl)|exact (valid_goto _ _ _ _ _ _ _ _ V2 nth_2 eq_refl)].
  Qed.

  Lemma read_run : (forall Z u a0, rd Z u a0 -> forall st g ts a z k q b r, valid rs sr g (mk_item k q b) -> nth_error rs k = Some r -> nth_error (r_rhs r) q = Some Z ->
      firsts rs (skipn (S q) (r_rhs r) ++ [TM b]) (fst_of (kinds tix z) TEoi) -> skipn a w = u ++ z -> length ts = length g -> invat st g ts a -> rec_ok st ->
      goes st g ts a [Z] (length u) (fun ts' => exists t, ts' = [t] /\ ev (pr_gens P) w t = GOk a0)) /\
    (forall l u args, rds l u args -> forall st g ts a z k q b r, valid rs sr g (mk_item k q b) -> nth_error rs k = Some r -> skipn q (r_rhs r) = l ->
      fst_of (kinds tix z) TEoi = b -> skipn a w = u ++ z -> length ts = length g -> invat st g ts a -> rec_ok st ->
      goes st g ts a l (length u) (fun ts' => gmap (ev (pr_gens P) w) ts' = GOk args)).
  Proof.
    apply reads_readss_ind.
    - intros x st g ts a z k q b r Hv Hr Hq _ Ew Hl Hinv Hrec. cbn [app] in Ew. destruct (skip_head _ _ _ _ Ew) as [Hx _].
      destruct (tok_turn st g ts a x (tix x) Hinv ltac:(exists k, q, b, r; auto) Hx eq_refl Hrec) as (st' & Hs & Hi & Hrec').
      left. exists st', [Leaf a]. split; [apply reaches_step; auto|]. split; auto. split; [rewrite Nat.add_1_r; exact Hi|]. exists (Leaf a). split; auto. cbn [ev]. rewrite Hx. reflexivity.
    - intros c u args v Hc _ IH Hgv st g ts a z k q b r Hv Hr Hq Hf Ew Hl Hinv Hrec. apply In_nth_error in Hc as [k' Hk'].
      assert (Hlt : k' < nb) by (apply nth_error_Some; congruence). assert (Hr' : nth_error rs k' = Some (cr_rule c)) by (rewrite nth_base by auto; unfold B; rewrite nth_error_map, Hk'; auto).
      assert (Hv' : valid rs sr g (mk_item k' 0 (fst_of (kinds tix z) TEoi))) by (eapply valid_closure; eauto).
      destruct (IH st g ts a z k' 0 _ _ Hv' Hr' eq_refl eq_refl Ew Hl Hinv Hrec) as [(st1 & ts1 & R1 & R2 & R3 & R4)|R1]; [|right; auto].
      assert (Hla : la_at tix w (a + length u) = fst_of (kinds tix z) TEoi) by (eapply la_rest; [eapply skip_at; exact Ew|auto]). rewrite <- Hla in Hv'.
      destruct (cr_nth _ _ Hr' Hlt) as (c' & Hc' & _ & Hg). assert (c' = c) by congruence. subst c'.
      destruct (rule_turn st1 g ts ts1 k' (cr_rule c) _ args v _ Hv' Hr' ltac:(rewrite sr_eq; lia) Hl R3 R2 R4 Hg Hgv) as [Hbad|(st2 & S1 & S2 & S3 & S4)].
      + right. eapply bad_reaches; eauto.
      + left. exists st2, [Node k' ts1]. split; [eapply reaches_trans; [exact R1|apply reaches_step; auto]|]. split; auto. split; auto. eauto.
    - intros o u c a0 v Ho _ IH Hc Hgv st g ts a z k q b r Hv Hr Hq Hf Ew Hl Hinv Hrec.
      destruct (okg_of _ _ _ _ _ _ Hv Hr Hq Hf) as (Hok & V1 & _). cbn [app] in Ew. rewrite <- app_assoc in Ew. cbn [app] in Ew. destruct (skip_head _ _ _ _ Ew) as [Hxo Ew1].
      destruct (tok_turn st g ts a o op Hinv ltac:(exists nb, 0; eexists; exists r1; split; [exact V1|split; [exact nth_1|reflexivity]]) Hxo Ho Hrec) as (st1 & Hs1 & Hi1 & Hrec1).
      pose proof (skip_at _ _ _ _ Ew1) as Eb. set (bb := S a + length u) in *. destruct (skip_head _ _ _ _ Eb) as [Hxc Ew2].
      assert (Hend : a + length (o :: u ++ [c]) = S bb) by (cbn [length]; rewrite app_length; cbn [length]; unfold bb; lia). unfold goes. rewrite Hend.
      pose proof (valid_goto _ _ _ _ _ _ _ _ V1 nth_1 eq_refl) as V2.
      destruct (IH st1 (g ++ [Open]) (ts ++ [Leaf a]) (S a) (c :: z) nb 1 _ r1 V2 nth_1 eq_refl) as [(st2 & ts2 & R1 & R2 & R3 & t2 & -> & R4)|R1]; auto.
      { cbn. rewrite Hc. eexists. constructor. }
      { rewrite !app_length. simpl. lia. }
      2: { right. eapply bad_reaches; [apply reaches_step; exact Hs1|auto]. }
      fold bb in R3. pose proof (valid_goto _ _ _ _ _ _ _ _ V2 nth_1 eq_refl) as V3.
      destruct (tok_turn st2 _ _ bb c cl R3 ltac:(exists nb, 2; eexists; exists r1; split; [exact V3|split; [exact nth_1|reflexivity]]) Hxc Hc R2) as (st3 & Hs3 & Hi3 & Hrec3).
      rewrite <- !app_assoc in Hi3. cbn [app] in Hi3.
      assert (Hla : la_at tix w (S bb) = fst_of (kinds tix z) TEoi) by (eapply la_rest; eauto). rewrite <- Hla in V1.
      destruct (rule_turn st3 g ts [Leaf a; t2; Leaf bb] nb r1 g1 [Terminal o; a0; Terminal c] v _ V1 nth_1 ltac:(rewrite sr_eq; lia) Hl Hi3 Hrec3) as [Hbad|(st4 & S1 & S2 & S3 & S4)].
      { apply gmap_cons; [cbn [ev]; rewrite Hxo; reflexivity|]. apply gmap_cons; auto. apply gmap_cons; auto. cbn [ev]. rewrite Hxc. reflexivity. }
      { rewrite <- (Nat.add_0_r nb), gens_nth by lia. reflexivity. }
      { auto. }
      + right. eapply bad_reaches; [|exact Hbad]. eapply reaches_trans; [apply reaches_step; exact Hs1|]. eapply reaches_trans; [exact R1|apply reaches_step; auto].
      + left. exists st4, [Node nb [Leaf a; t2; Leaf bb]]. split; [eapply reaches_trans; [apply reaches_step; exact Hs1|]; eapply reaches_trans; [exact R1|]; eapply reaches_trans; apply reaches_step; eauto|].
        split; auto. split; auto. eauto.
    - intros o u c sl v Ho Hu Hc Hns Hsl Hgv st g ts a z k q b r Hv Hr Hq Hf Ew Hl Hinv Hrec.
      destruct (okg_of _ _ _ _ _ _ Hv Hr Hq Hf) as (Hok & _ & V1). cbn [app] in Ew. rewrite <- app_assoc in Ew. cbn [app] in Ew. destruct (skip_head _ _ _ _ Ew) as [Hxo Ew1].
      destruct (tok_turn st g ts a o op Hinv ltac:(exists (nb + 1), 0; eexists; exists r2; split; [exact V1|split; [exact nth_2|reflexivity]]) Hxo Ho Hrec) as (st1 & Hs1 & Hi1 & Hrec1).
      pose proof (skip_at _ _ _ _ Ew1) as Eb. set (bb := S a + length u) in *. destruct (skip_head _ _ _ _ Eb) as [Hxc Ew2].
      assert (Hend : a + length (o :: u ++ [c]) = S bb) by (cbn [length]; rewrite app_length; cbn [length]; unfold bb; lia). unfold goes. rewrite Hend.
      assert (Eu : firstn (bb - S a) (skipn (S a) w) = u) by (rewrite Ew1; unfold bb; replace (S a + length u - S a) with (length u) by lia; rewrite firstn_app, Nat.sub_diag, firstn_all; apply app_nil_r).
      assert (Hno : forall i y, S a <= i -> i < bb -> nth_error w i = Some y -> tix y <> op /\ tix y <> cl).
      { intros i y H1 H2 Hy. apply Hu. unfold bb in H2. apply (nth_error_In u (i - S a)). rewrite <- (nth_error_app1 u (c :: z)) by lia. rewrite <- Ew1, nth_skip. rewrite <- Hy. f_equal. lia. }
      assert (Hab : S a <= bb) by (unfold bb; lia). set (gm := g ++ [Open]) in *. set (tg := ts ++ [Leaf a]) in *.
      assert (Hl' : length tg = length gm) by (unfold tg, gm; rewrite !app_length; simpl; lia).
      assert (HD : D gm tg (S a) bb st1 [] [] (S a)).
      { constructor; auto.
        - rewrite !app_nil_r. auto.
        - simpl. rewrite Nat.sub_diag. auto.
        - left. auto.
        - rewrite app_nil_r. apply as_refl. }
      destruct (all_stops _ _ _ _ Hi1) as (r0 & [m Hm'] & Hr0). assert (Hfuel : loop step m st1 <> OutOfFuel) by (rewrite (Hm' m (le_n m)); auto).
      assert (Hw0 : w <> []) by (intros E0; rewrite E0 in Hxo; destruct a; discriminate).
      destruct (D_phase gm tg (S a) bb Hok Hl' c Hab Hxc Hc Hno m st1 [] [] (S a) HD Hfuel) as [(st2 & t & x1 & R1 & R2 & Hx1)|[(st2 & d1 & td1 & pos1 & R1 & R2 & R3)|R1]].
      + exfalso. apply Hns. rewrite <- Eu. pose proof (D_lvs _ _ _ _ _ _ _ _ R2) as Hlv. cbn [flat_map] in Hlv. rewrite app_nil_r in Hlv.
        pose proof (D_clean _ _ _ _ _ _ _ _ R2) as Hcl. cbn [forallb] in Hcl. rewrite andb_true_r in Hcl.
        pose proof (inv_twfs tix _ _ _ _ _ (md_len _ _ _ _ Hm) _ _ _ _ (or_introl Hw0) (D_inv _ _ _ _ _ _ _ _ R2)) as T1.
        apply twfs_app_inv in T1 as (b1 & b2 & E2 & T1 & T2). assert (E3 : tg = b1) by (eapply app_len_inj; [exact E2|]; pose proof (twfs_len _ _ _ _ _ T1); lia). rewrite E3 in E2. apply app_inv_head in E2. subst b2.
        assert (T3 : twf tix rs w (NT X) t) by (inversion T2; auto). apply (tree_stmt w t (S a) (bb - S a) T3 Hcl Hlv). assert (bb < length w) by (apply nth_error_Some; congruence). lia.
      + destruct (seg_error gm tg (S a) bb Hok Hl' c Hab Hxc Hc Hno st2 d1 td1 pos1 R2 R3) as (st3 & hi & S1 & S2 & S3 & S4).
        pose proof (S4 _ Hxc) as Hrep. rewrite Eu in Hrep. assert (Esl : firstn (S hi - S a) (skipn (S a) w) = sl) by (clear - Hrep Hsl; inversion Hrep; subst; inversion Hsl; subst; auto; contradiction).
        destruct (tok_turn st3 _ _ bb c cl S2 (proj2 (err_wants gm Hok Close) eq_refl) Hxc Hc S3) as (st4 & Hs4 & Hi4 & Hrec4).
        unfold gm, tg in Hi4. rewrite <- !app_assoc in Hi4. cbn [app] in Hi4.
        assert (Hla : la_at tix w (S bb) = fst_of (kinds tix z) TEoi) by (eapply la_rest; eauto). rewrite <- Hla in V1.
        assert (Hreach : reaches step st st4) by (eapply reaches_trans; [apply reaches_step; exact Hs1|]; eapply reaches_trans; [exact R1|]; eapply reaches_trans; [exact S1|apply reaches_step; auto]).
        destruct (rule_turn st4 g ts [Leaf a; Bad (S a) hi; Leaf bb] (nb + 1) r2 g2 [Terminal o; ErrorSym sl; Terminal c] v _ V1 nth_2 ltac:(rewrite sr_eq; lia) Hl Hi4 Hrec4) as [Hbad|(st5 & Q1 & Q2 & Q3 & Q4)].
        { apply gmap_cons; [cbn [ev]; rewrite Hxo; reflexivity|]. apply gmap_cons; [cbn [ev]; rewrite <- Esl; reflexivity|]. apply gmap_cons; auto. cbn [ev]. rewrite Hxc. reflexivity. }
        { rewrite gens_nth by lia. reflexivity. }
        { auto. }
        * right. eapply bad_reaches; eauto.
        * left. exists st5, [Node (nb + 1) [Leaf a; Bad (S a) hi; Leaf bb]]. split; [eapply reaches_trans; [exact Hreach|apply reaches_step; auto]|]. split; auto. split; auto. eauto.
      + right. eapply bad_reaches; [apply reaches_step; exact Hs1|auto].
    - intros st g ts a z k q b r _ _ _ _ _ _ Hinv Hrec. left. exists st, []. split; [apply reaches_refl|]. split; auto. rewrite !app_nil_r, Nat.add_0_r. auto.
    - intros Z l u u' a0 args Hd1 IH1 Hd2 IH2 st g ts a z k q b r Hv Hr Hsk Hz Ew Hl Hinv Hrec. rewrite <- app_assoc in Ew.
      assert (HZ : nth_error (r_rhs r) q = Some Z /\ skipn (S q) (r_rhs r) = l) by (apply skip_head; auto). destruct HZ as [HZ Hsk'].
      destruct (IH1 st g ts a (u' ++ z) k q b r Hv Hr HZ) as [(st1 & ts1 & R1 & R2 & R3 & t1 & -> & R4)|R1]; auto.
      { rewrite Hsk'. destruct l as [|Z' l].
        - assert (E0 : u' = []) by (inversion Hd2; auto). rewrite E0. cbn [app]. rewrite Hz. exists []. constructor.
        - destruct (proj2 reads_first _ _ _ Hd2 ltac:(discriminate)) as (x & u0 & -> & Hfx). cbn. destruct Hfx as [rest Hfx]. exists (rest ++ [TM b]). change (TM (TSym (tix x)) :: rest ++ [TM b]) with ((TM (TSym (tix x)) :: rest) ++ [TM b]). exact (rewr_ctx _ _ _ Hfx [] [TM b]). }
      2: { right. auto. }
      pose proof (valid_goto _ _ _ _ _ _ _ _ Hv Hr HZ) as Hv'.
      destruct (IH2 st1 (g ++ [Z]) (ts ++ [t1]) (a + length u) z k (S q) b r Hv' Hr Hsk' Hz (skip_at _ _ _ _ Ew) ltac:(rewrite !app_length; simpl; lia) R3 R2) as [(st2 & ts2 & Q1 & Q2 & Q3 & Q4)|Q1].
      + left. exists st2, (t1 :: ts2). split; [eapply reaches_trans; eauto|]. split; auto. rewrite <- !app_assoc in Q3. cbn [app] in Q3. split; [rewrite app_length, Nat.add_assoc; exact Q3|]. apply gmap_cons; auto.
      + right. eapply bad_reaches; eauto.
  Qed.

  Lemma init_inv : invat (ps_init P w) [] [] 0.
  Proof. constructor; simpl; auto; try constructor; auto. Qed.
  Lemma accept_turn st t v : invat st [NT start] [t] (length w) -> ev (pr_gens P) w t = GOk (NonTerminal v) -> ends step st (Ok (ROk v, [])).
  Proof.
    intros Hinv Hev. assert (Hla : la_at tix w (length w) = TEoi) by (unfold la_at; replace (nth_error w (length w)) with (@None T); auto; symmetry; apply nth_error_None; auto).
    assert (Hacc : accepting rs sr [NT start]) by (change start with (sx_start s); apply accepting_start).
    destruct (cases tix s P [] ss w Hm _ _ _ _ Hinv) as (d0 & Hd & Hc). fold rs sr p in Hd. rewrite Hla in Hd. destruct d0 as [[q|k|]|]; cbn in Hd.
    - exfalso. destruct Hd as [(k & q0 & b0 & r & _ & Hr & Hq) _]. apply nth_error_In in Hr, Hq. unfold rs, augment in Hr. apply in_app_or in Hr as [Hr|[<-|[]]].
      + eapply (md_eoi _ _ _ _ Hm); eauto.
      + destruct Hq as [Hq|[]]; discriminate.
    - tauto.
    - destruct Hc as (_ & _ & _ & t0 & v0 & Et & Ev & Hs). injection Et as <-. assert (v0 = v) by congruence. subst v0. apply ends_step. auto.
    - tauto.
  Qed.
  Lemma bracket_result v : rd (NT start) w (NonTerminal v) -> returns tix P w (ROk v) \/ panics tix P w \/ exists e, returns tix P w (RReducer e).
  Proof.
    intros Hr. destruct (proj1 read_run _ _ _ Hr (ps_init P w) [] [] 0 [] sr 0 TEoi rstart) as [(st & ts & H1 & H2 & H3 & t & -> & H4)|[H1|(e & it & H1)]]; auto.
    - constructor.
    - exact nth_sr.
    - exists []. constructor.
    - rewrite app_nil_r. reflexivity.
    - exact init_inv.
    - intros ? [].
    - left. eapply ends_returns. eapply reaches_ends; [exact H1|]. eapply accept_turn; eauto.
    - right. left. eapply ends_panics; eauto.
    - right. right. exists e. eapply ends_returns; eauto.
  Qed.
End BrackRun.
