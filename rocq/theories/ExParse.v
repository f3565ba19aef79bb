(** * The calculator's parser evaluates expressions *)
From Coq Require Import List Arith Lia Bool.
From Verif Require Import Lib Grammar LrModel LrTop ParseModel Trees ParseSpec ParseTop ParseMore ParseExamples PropParse PropRecover PropLr ExModel ExSpec.
Import ListNotations.

Section S.
  Context {F Err : Type} (fo : floats F).
  Notation tix := (@token_index F).
  Notation s := (@calc_syntax F fo Err).
  Notation value := (value F).
  Notation token := (token F).

  Lemma calc_api : api_syntax value_index tix s.
  Proof. unfold api_syntax. cbn [sx_rules calc_syntax sb_build sb_rule fold_left sb_new app]. repeat apply Forall_cons; try apply Forall_nil; constructor. Qed.
  Lemma calc_free : error_free s.
  Proof. intros r H. simpl in H. repeat destruct H as [<-|H]; simpl; intuition discriminate. Qed.
  Lemma calc_not_cyclic : ~ cyclic (gram s) (sx_start s).
  Proof.
    apply (ranked_not_cyclic _ (fun n => match n with 0 => 2 | 1 => 1 | _ => 0 end)); unfold gram; simpl;
      repeat apply Forall_cons; try apply Forall_nil; simpl; try discriminate; try (right; left; lia); try (left; eexists; simpl; eauto; fail); right; right; eexists; (split; [reflexivity|cbv; lia]).
  Qed.
  Definition calc_gram : list rule :=
    [mk_rule 0 [NT 0; TM (TSym 1); NT 1]; mk_rule 0 [NT 0; TM (TSym 2); NT 1]; mk_rule 0 [NT 1];
     mk_rule 1 [NT 1; TM (TSym 3); NT 2]; mk_rule 1 [NT 1; TM (TSym 4); NT 2]; mk_rule 1 [NT 2];
     mk_rule 2 [TM (TSym 0)]; mk_rule 2 [TM (TSym 1); TM (TSym 0)]; mk_rule 2 [TM (TSym 2); TM (TSym 0)];
     mk_rule 2 [TM (TSym 5); NT 0; TM (TSym 6)]; mk_rule 2 [TM (TSym 7); NT 2]].
  Lemma calc_gram_ok : gram s = calc_gram.
  Proof. reflexivity. Qed.

  Lemma block_word : der calc_gram (NT 2) [TSym 0].
  Proof. apply (der_rule calc_gram (mk_rule 2 [TM (TSym 0)])); [simpl; tauto|]. apply (ders_cons _ _ [] [TSym 0] []); constructor. Qed.
  Lemma product_word : der calc_gram (NT 1) [TSym 0].
  Proof. apply (der_rule calc_gram (mk_rule 1 [NT 2])); [simpl; tauto|]. apply (ders_cons _ _ [] [TSym 0] []); [apply block_word|constructor]. Qed.
  Lemma sum_word : der calc_gram (NT 0) [TSym 0].
  Proof. apply (der_rule calc_gram (mk_rule 0 [NT 1])); [simpl; tauto|]. apply (ders_cons _ _ [] [TSym 0] []); [apply product_word|constructor]. Qed.
  Lemma calc_productive : productive (gram s).
  Proof.
    rewrite calc_gram_ok. intros r X Hr HX. unfold calc_gram in Hr. simpl in Hr.
    repeat destruct Hr as [<-|Hr]; try destruct Hr; simpl in HX; repeat destruct HX as [<-|HX]; try destruct HX;
      eexists; first [apply block_word|apply product_word|apply sum_word|constructor].
  Qed.

  (** every value is a number of the right kind *)
  Definition calc_ty (A : nat) (v : value) : Prop :=
    match A with 0 => exists n, v = Sum (Some n) | 1 => exists n, v = Product (Some n) | 2 => exists n, v = Block (Some n) | _ => False end.
  Lemma calc_total w : total_typed tix calc_ty s w.
  Proof.
    intros r args Hr [Hf _] Ht. simpl in Hr.
    repeat destruct Hr as [<-|Hr]; try destruct Hr; simpl in Hf;
      repeat match goal with H : Forall2 _ (_ :: _) _ |- _ => inversion H; clear H; subst | H : Forall2 _ [] _ |- _ => inversion H; clear H; subst
        | H : fits _ _ ?a |- _ => destruct a; simpl in H; try contradiction end.
    all: try (pose proof (Ht 0 _ _ eq_refl eq_refl) as HA); try (pose proof (Ht 1 _ _ eq_refl eq_refl) as HB); try (pose proof (Ht 2 _ _ eq_refl eq_refl) as HC); clear Ht.
    all: simpl in *; repeat match goal with H : exists _, _ = _ |- _ => destruct H as [? ->] end.
    all: repeat match goal with x : ExModel.token F |- _ => destruct x; try discriminate end.
    all: simpl; eexists; split; [reflexivity|eexists; reflexivity].
  Qed.

  (** *** new *)
  Lemma calc_new0 : exists P, makes env0 s P [].
  Proof.
    destruct (lr_new env0 1000 calc_gram 0) as [[p ws]| |] eqn:E0; [|vm_compute in E0; discriminate|vm_compute in E0; discriminate].
    assert (Ew : ws = []). { vm_compute in E0. injection E0 as _ <-. reflexivity. }
    subst ws. eexists. split; [apply env0_ok|]. exists 1000. unfold lr1_new.
    change (map cr_rule (sx_rules s)) with calc_gram. change (sx_start s) with 0. rewrite E0. reflexivity.
  Qed.
  Lemma calc_warnings e P ws : makes e s P ws -> ws = [].
  Proof.
    intros Hm. destruct calc_new0 as [P0 H0]. destruct (C32_order_independent _ _ _ value_index tix e env0 s P P0 ws [] calc_api Hm H0) as [H _].
    apply Permutation_sym, Permutation_nil in H. exact H.
  Qed.
  Lemma calc_new e : lr_env_ok e -> exists K P, forall fuel, K <= fuel -> lr1_new e fuel s = Ok (P, []).
  Proof.
    intros He. destruct (C27_new_total _ _ _ value_index tix e s He calc_api) as (K & [(P & ws & H)|((A & HA & Hu) & _)]).
    - exists K, P. rewrite <- (calc_warnings e P ws); auto. split; auto. exists K. auto.
    - exfalso. assert (HA2 : A <= 2).
      { destruct Hu as [->|(r & Hr & Hi)]; [simpl; lia|]. change (map cr_rule (sx_rules s)) with calc_gram in *. simpl in Hr.
        repeat destruct Hr as [<-|Hr]; try destruct Hr; simpl in Hi; repeat destruct Hi as [Hi|Hi]; try discriminate; try (injection Hi as <-; lia); destruct Hi. }
      destruct A as [|[|[|A]]]; [apply (HA (mk_rule 0 [NT 1]))|apply (HA (mk_rule 1 [NT 2]))|apply (HA (mk_rule 2 [TM (TSym 0)]))|lia]; try reflexivity; rewrite calc_gram_ok; simpl; tauto.
  Qed.

  (** *** an expression has a tree, and the reducers compute its value *)
  Section Trees.
    Variable w : list token.
    Notation arg := (arg value token).
    (** the tokens [u] stand in [w] at position [a] *)
    Definition seg (a : nat) (u : list token) : Prop := exists pre post, w = pre ++ u ++ post /\ length pre = a.
    Lemma seg_app a u v : seg a (u ++ v) -> seg a u /\ seg (a + length u) v.
    Proof.
      intros (pre & post & H & Ha). split; [exists pre, (v ++ post)|exists (pre ++ u), post]; rewrite H, ?app_length, <- ?app_assoc; subst; auto.
    Qed.
    (** there is a tree for [X] over them, whose value is [x] *)
    Definition has (a : nat) (X : sym) (u : list token) (x : arg) : Prop :=
      exists t, twf tix (gram s) w X t /\ leaves t = seq a (length u) /\ clean t = true /\ ev (gens s) w t = GOk x.
    Definition hass (a : nat) (l : list sym) (u : list token) (args : list arg) : Prop :=
      exists ts, twfs tix (gram s) w l ts /\ flat_map leaves ts = seq a (length u) /\ forallb clean ts = true /\ gmap (ev (gens s) w) ts = GOk args.
    Lemma has_tok a x : seg a [x] -> has a (TM (TSym (tix x))) [x] (Terminal x).
    Proof.
      intros (pre & post & H & Ha). assert (Hn : nth_error w a = Some x). { subst a. rewrite H. clear. induction pre; simpl; auto. }
      exists (Leaf a). split; [constructor; auto|]. split; [reflexivity|]. split; [reflexivity|]. cbn [ev]. rewrite Hn. reflexivity.
    Qed.
    Lemma hass_nil a : hass a [] [] [].
    Proof. exists []. repeat split; constructor. Qed.
    Lemma hass_cons a X l u v x args : has a X u x -> hass (a + length u) l v args -> hass a (X :: l) (u ++ v) (x :: args).
    Proof.
      intros (t & A1 & A2 & A3 & A4) (ts & B1 & B2 & B3 & B4). exists (t :: ts). split; [constructor; auto|]. split; [|split].
      - cbn [flat_map]. rewrite A2, B2, app_length, seq_app. reflexivity.
      - cbn [forallb]. rewrite A3, B3. reflexivity.
      - cbn [gmap]. rewrite A4. cbn [gbind]. rewrite B4. reflexivity.
    Qed.
    Lemma has_rule a k r u args v : nth_error (gram s) k = Some r -> hass a (r_rhs r) u args -> call (gens s) k args = GOk v -> has a (NT (r_lhs r)) u (NonTerminal v).
    Proof.
      intros Hk (ts & B1 & B2 & B3 & B4) Hv. exists (Node k ts). split; [constructor; auto|]. split; [exact B2|]. split; [exact B3|].
      cbn [ev]. rewrite B4. cbn [gbind]. rewrite Hv. reflexivity.
    Qed.
    Lemma rule1 a k A X u x v : nth_error (gram s) k = Some (mk_rule A [X]) -> has a X u x -> call (gens s) k [x] = GOk v -> has a (NT A) u (NonTerminal v).
    Proof.
      intros Hk H Hv. apply (has_rule a k _ u [x] v Hk); auto. cbn [r_rhs]. rewrite <- (app_nil_r u). apply hass_cons; auto. apply hass_nil.
    Qed.
    Lemma rule2 a k A X Y u1 u2 x y v : nth_error (gram s) k = Some (mk_rule A [X; Y]) -> has a X u1 x -> has (a + length u1) Y u2 y -> call (gens s) k [x; y] = GOk v ->
      has a (NT A) (u1 ++ u2) (NonTerminal v).
    Proof.
      intros Hk H1 H2 Hv. apply (has_rule a k _ _ [x; y] v Hk); auto. cbn [r_rhs]. apply hass_cons; auto. rewrite <- (app_nil_r u2). apply hass_cons; auto. apply hass_nil.
    Qed.
    Lemma rule3 a k A X Y Z u1 u2 u3 x y z v : nth_error (gram s) k = Some (mk_rule A [X; Y; Z]) -> has a X u1 x -> has (a + length u1) Y u2 y -> has (a + length u1 + length u2) Z u3 z ->
      call (gens s) k [x; y; z] = GOk v -> has a (NT A) (u1 ++ u2 ++ u3) (NonTerminal v).
    Proof.
      intros Hk H1 H2 H3 Hv. apply (has_rule a k _ _ [x; y; z] v Hk); auto. cbn [r_rhs]. apply hass_cons; auto. apply hass_cons; auto. rewrite <- (app_nil_r u3). apply hass_cons; auto. apply hass_nil.
    Qed.

    Lemma expr_trees :
      (forall u n, is_sum fo u n -> forall a, seg a u -> has a (NT 0) u (NonTerminal (Sum (Some n)))) /\
      (forall u n, is_product fo u n -> forall a, seg a u -> has a (NT 1) u (NonTerminal (Product (Some n)))) /\
      (forall u n, is_block fo u n -> forall a, seg a u -> has a (NT 2) u (NonTerminal (Block (Some n)))).
    Proof.
      apply calc_ind.
      - intros u v a b _ IH1 _ IH2 p Hp. apply seg_app in Hp as [H1 Hp]. apply seg_app in Hp as [H2 H3]. eapply (rule3 p 0); [reflexivity|apply IH1; auto|apply has_tok; auto|apply IH2; auto|reflexivity].
      - intros u v a b _ IH1 _ IH2 p Hp. apply seg_app in Hp as [H1 Hp]. apply seg_app in Hp as [H2 H3]. eapply (rule3 p 1); [reflexivity|apply IH1; auto|apply has_tok; auto|apply IH2; auto|reflexivity].
      - intros u a _ IH p Hp. eapply (rule1 p 2); [reflexivity|apply IH; auto|reflexivity].
      - intros u v a b _ IH1 _ IH2 p Hp. apply seg_app in Hp as [H1 Hp]. apply seg_app in Hp as [H2 H3]. eapply (rule3 p 3); [reflexivity|apply IH1; auto|apply has_tok; auto|apply IH2; auto|reflexivity].
      - intros u v a b _ IH1 _ IH2 p Hp. apply seg_app in Hp as [H1 Hp]. apply seg_app in Hp as [H2 H3]. eapply (rule3 p 4); [reflexivity|apply IH1; auto|apply has_tok; auto|apply IH2; auto|reflexivity].
      - intros u a _ IH p Hp. eapply (rule1 p 5); [reflexivity|apply IH; auto|reflexivity].
      - intros n p Hp. eapply (rule1 p 6); [reflexivity|exact (has_tok p (Number n) Hp)|reflexivity].
      - intros n p Hp. apply (seg_app p [Add] [Number n]) in Hp as [H1 H2]. eapply (rule2 p 7 _ _ _ [Add] [Number n]); [reflexivity|apply (has_tok _ Add); auto|apply (has_tok _ (Number n)); auto|reflexivity].
      - intros n p Hp. apply (seg_app p [Sub] [Number n]) in Hp as [H1 H2]. eapply (rule2 p 8 _ _ _ [Sub] [Number n]); [reflexivity|apply (has_tok _ Sub); auto|apply (has_tok _ (Number n)); auto|reflexivity].
      - intros u a _ IH p Hp. apply seg_app in Hp as [H1 Hp]. apply seg_app in Hp as [H2 H3]. eapply (rule3 p 9); [reflexivity|apply (has_tok _ Bracket); auto|apply IH; auto|apply (has_tok _ CloseBracket); auto|reflexivity].
      - intros u a _ IH p Hp. apply seg_app in Hp as [H1 H2]. eapply (rule2 p 10); [reflexivity|apply (has_tok _ Sqrt); auto|apply IH; auto|reflexivity].
    Qed.
    Lemma sum_tree n : is_sum fo w n -> exists t, proper_tree tix s w t /\ ev (gens s) w t = GOk (NonTerminal (Sum (Some n))).
    Proof.
      intros H. destruct (proj1 expr_trees _ _ H 0) as (t & H1 & H2 & H3 & H4); [exists [], []; rewrite app_nil_r; auto|].
      exists t. split; auto. split; auto. split; auto.
    Qed.
  End Trees.

  (** *** what the grammar derives is an expression *)
  Definition means (X : sym) (u : list token) : Prop :=
    match X with
    | NT 0 => exists n, is_sum fo u n
    | NT 1 => exists n, is_product fo u n
    | NT 2 => exists n, is_block fo u n
    | NT _ => False
    | TM (TSym k) => exists x, u = [x] /\ tix x = k
    | _ => False
    end.
  Lemma kinds_app u v (x : list token) : kinds tix x = u ++ v -> exists x1 x2, x = x1 ++ x2 /\ kinds tix x1 = u /\ kinds tix x2 = v.
  Proof. intros H. apply map_eq_app in H as (x1 & x2 & H1 & H2 & H3). eauto. Qed.
  Lemma der_means :
    (forall X u, der (gram s) X u -> forall x, kinds tix x = u -> means X x) /\
    (forall l u, ders (gram s) l u -> forall x, kinds tix x = u -> exists parts, x = concat parts /\ Forall2 means l parts).
  Proof.
    apply der_ders_ind.
    - intros [k| |] x Hx; destruct x as [|y [|]]; try discriminate; injection Hx as Hx. exists y. auto.
    - intros r u Hr _ IH x Hx. destruct (IH x Hx) as (parts & -> & Hp). rewrite calc_gram_ok in Hr. simpl in Hr.
      repeat destruct Hr as [<-|Hr]; try destruct Hr; cbn [r_lhs r_rhs] in *;
        repeat match goal with H : Forall2 _ (_ :: _) _ |- _ => inversion H; clear H; subst | H : Forall2 _ [] _ |- _ => inversion H; clear H; subst
          | H : means _ _ |- _ => destruct H as (? & H) | H : _ /\ _ |- _ => destruct H; subst end;
        repeat match goal with x : ExModel.token F |- _ => destruct x; try discriminate end;
        cbn [concat means]; rewrite ?app_nil_r; eexists;
        first [apply sum_add; eassumption|apply sum_sub; eassumption|apply sum_one; eassumption|apply product_mul; eassumption|apply product_div; eassumption|apply product_one; eassumption
              |apply block_number|apply block_plus|apply block_minus|apply block_bracket; eassumption|apply block_sqrt; eassumption].
    - intros x Hx. apply map_eq_nil in Hx. subst. exists []. auto.
    - intros X l u v _ IH1 _ IH2 x Hx. apply kinds_app in Hx as (x1 & x2 & -> & H1 & H2). destruct (IH2 _ H2) as (parts & -> & Hp). exists (x1 :: parts). auto.
  Qed.

  Lemma calc_decides e P ws w : makes e s P ws ->
    (exists n, is_sum fo w n /\ returns tix P w (ROk (Sum (Some n)))) \/ ((forall n, ~ is_sum fo w n) /\ returns tix P w RNotFound).
  Proof.
    intros Hm. pose proof (calc_warnings e P ws Hm) as ->.
    destruct (C23_decides_partial _ _ _ value_index tix e s P w calc_api Hm calc_free calc_productive (ex_intro (fun ty => total_typed tix ty s w) _ (calc_total w))) as [[Hd _]|[Hd Hr]].
    - left. destruct (proj1 der_means _ _ Hd w eq_refl) as [n Hn]. exists n. split; auto. destruct (sum_tree w n Hn) as (t & Ht & Hv).
      destruct (C25_evaluation _ _ _ value_index tix e s P w t calc_api Hm calc_not_cyclic Ht) as [Hy _]. rewrite Hv in Hy. exact Hy.
    - right. split; auto. intros n Hn. apply Hd. destruct (sum_tree w n Hn) as (t & Ht & _). apply derivable_tree. eauto.
  Qed.
  Lemma is_sum_det w n n' : is_sum fo w n -> is_sum fo w n' -> n = n'.
  Proof.
    intros H1 H2. destruct calc_new0 as [P Hm]. destruct (sum_tree w n H1) as (t & Ht & Hv). destruct (sum_tree w n' H2) as (t' & Ht' & Hv').
    rewrite (C24_unambiguous_partial _ _ _ value_index tix env0 s P w t t' calc_api Hm calc_not_cyclic Ht Ht') in Hv. congruence.
  Qed.
End S.
