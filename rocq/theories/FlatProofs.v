(** * Operators without levels of precedence: proofs *)
From Coq Require Import List Arith Lia Bool.
From Verif Require Import Lib Grammar LrModel ParseModel Trees ParseSpec ChoiceSpec StmtSpec ValueProofs AmbigSpec FlatSpec.
Import ListNotations.

Section FlatProofs.
  Context {N T E : Type} (tix : T -> nat) (cs : list (construct * reducer N T E)).
  Notation s := (flat_syntax cs).
  Notation E0 := (NT 0).
  Definition pre (c : construct) : list sym := if left_operand c then [E0] else [].
  Definition post (c : construct) : list sym := if right_operand c then [E0] else [].
  Definition mids (ms : list nat) : list sym := flat_map (fun m => [E0; TM (TSym m)]) ms.
  Definition rhs (c : construct) : list sym := pre c ++ TM (TSym (first_token c)) :: mids (more_tokens c) ++ post c.
  Lemma body_rhs c : map to_sym (body c) = rhs c.
  Proof.
    unfold body, rhs, pre, post, mids. rewrite map_app. simpl. rewrite map_app.
    assert (H : forall ms, map to_sym (flat_map (fun m => [NonTerminal 0; Terminal m]) ms) = flat_map (fun m => [E0; TM (TSym m)]) ms) by (induction ms as [|m ms IH]; simpl; congruence).
    rewrite H. destruct (left_operand c), (right_operand c); reflexivity.
  Qed.
  Lemma gram_nth k : nth_error (gram s) k = match nth_error cs k with Some p => Some (mk_rule 0 (rhs (fst p))) | None => None end.
  Proof. unfold gram, flat_syntax. simpl. rewrite map_map, nth_error_map. destruct (nth_error cs k) as [p|]; auto. simpl. rewrite body_rhs. auto. Qed.
  Lemma gens_nth k : nth_error (gens s) k = match nth_error cs k with Some p => Some (snd p) | None => None end.
  Proof. unfold gens, flat_syntax. simpl. rewrite map_map, nth_error_map. destruct (nth_error cs k) as [p|]; auto. Qed.
  Lemma gram_in r : In r (gram s) <-> exists p, In p cs /\ r = mk_rule 0 (rhs (fst p)).
  Proof.
    split.
    - intros H. apply In_nth_error in H as [k H]. rewrite gram_nth in H. destruct (nth_error cs k) as [p|] eqn:Ep; [|discriminate]. injection H as <-. exists p. split; auto. eapply nth_error_In; eauto.
    - intros (p & Hp & ->). apply In_nth_error in Hp as [k Hk]. eapply nth_error_In with (n := k). rewrite gram_nth, Hk. auto.
  Qed.

  Hypothesis HD : distinct cs.
  Lemma nodup_map {A} (f : A -> nat) l p q : NoDup (map f l) -> In p l -> In q l -> f p = f q -> p = q.
  Proof.
    induction l as [|a l IH]; simpl; [tauto|]. intros H. inversion H as [|? ? H1 H2]; subst. intros [->|Hp] [->|Hq] Ef; auto.
    - destruct H1. rewrite Ef. apply in_map. auto.
    - destruct H1. rewrite <- Ef. apply in_map. auto.
  Qed.
  Lemma same_first p q : In p cs -> In q cs -> left_operand (fst p) = left_operand (fst q) -> first_token (fst p) = first_token (fst q) -> p = q.
  Proof.
    intros Hp Hq El Ef. destruct HD as (H1 & H2 & _). destruct (left_operand (fst q)) eqn:Eq.
    - apply (nodup_map (fun p => first_token (fst p)) _ p q H2); auto; apply filter_In; rewrite ?El, ?Eq; auto.
    - apply (nodup_map (fun p => first_token (fst p)) _ p q H1); auto; apply filter_In; rewrite ?El, ?Eq; auto.
  Qed.
  Lemma in_firsts p : In p cs -> In (first_token (fst p)) (firsts_of (left_operand (fst p)) cs).
  Proof. intros Hp. unfold firsts_of. apply (in_map (fun p => first_token (fst p))). apply filter_In. split; auto. destruct (left_operand (fst p)); auto. Qed.

  (** the symbols of a right-hand side *)
  Lemma mids_cut ms : forall t l l' c, mids ms ++ post c = l ++ TM t :: l' -> exists m l0, t = TSym m /\ In m ms /\ l = l0 ++ [E0] /\ (l0 = [] \/ exists l1 y, l0 = l1 ++ [TM y]).
  Proof.
    induction ms as [|m ms IH]; intros t l l' c H; simpl in H.
    - unfold post in H. destruct (right_operand c); destruct l as [|? [|? ?]]; discriminate.
    - destruct l as [|X [|Y l]]; try discriminate.
      + injection H as <- <- _. exists m, []. simpl. auto.
      + injection H as <- <- H. apply IH in H as (m' & l0 & -> & H1 & -> & H2). exists m', (E0 :: TM (TSym m) :: l0). simpl. split; auto. split; auto. split; auto. right.
        destruct H2 as [->|(l1 & y & ->)]; [exists [E0], (TSym m); auto|exists (E0 :: TM (TSym m) :: l1), y; auto].
  Qed.
  Lemma rhs_cut c l t l' : rhs c = l ++ TM t :: l' ->
    (l = pre c /\ t = TSym (first_token c)) \/ exists m l1 y, t = TSym m /\ In m (more_tokens c) /\ l = l1 ++ [TM y; E0].
  Proof.
    unfold rhs. intros H. assert (G : forall l2, TM (TSym (first_token c)) :: mids (more_tokens c) ++ post c = l2 ++ TM t :: l' -> (l2 = [] /\ t = TSym (first_token c)) \/ exists m l1 y, t = TSym m /\ In m (more_tokens c) /\ l2 = l1 ++ [TM y; E0]).
    { intros [|X l2] G; simpl in G; [injection G as -> _; auto|]. right. injection G as <- G. apply mids_cut in G as (m & l0 & -> & H1 & -> & H2). exists m.
      destruct H2 as [->|(l1 & y & ->)]; [exists [], (TSym (first_token c)); auto|]. exists (TM (TSym (first_token c)) :: l1), y. split; auto. split; auto. simpl. rewrite <- app_assoc. reflexivity. }
    unfold pre in *. destruct (left_operand c); simpl in H.
    - destruct l as [|X l]; [discriminate|]. injection H as <- H. apply G in H as [[-> ->]|(m & l1 & y & -> & H1 & ->)]; [auto|]. right. exists m, (E0 :: l1), y. auto.
    - apply G in H. auto.
  Qed.
  Lemma rhs_head c l l' : rhs c = l ++ l' -> l <> [] -> l <> [E0] -> exists l2, l = pre c ++ TM (TSym (first_token c)) :: l2.
  Proof.
    unfold rhs, pre. destruct (left_operand c); simpl; intros H H1 H2.
    - destruct l as [|X [|Y l]]; try congruence; injection H as <-; try congruence. subst. simpl. eauto.
    - destruct l as [|X l]; try congruence. injection H as <- H. simpl. eauto.
  Qed.
  Lemma head_same p q l l1 l2 : In p cs -> In q cs -> rhs (fst p) = l ++ l1 -> rhs (fst q) = l ++ l2 -> l <> [] -> l <> [E0] -> p = q.
  Proof.
    intros Hp Hq H1 H2 Hn1 Hn2. destruct (rhs_head _ _ _ H1 Hn1 Hn2) as (a & Ha), (rhs_head _ _ _ H2 Hn1 Hn2) as (b & Hb). rewrite Ha in Hb. unfold pre in Hb.
    destruct (left_operand (fst p)) eqn:E1, (left_operand (fst q)) eqn:E2; simpl in Hb; try discriminate; injection Hb as Hb _; apply same_first; auto; congruence.
  Qed.
  Lemma begins_of A l : begins (gram s) A l -> A = 0 /\ exists p l', In p cs /\ rhs (fst p) = l ++ l'.
  Proof. intros (r & l' & Hr & <- & H). apply gram_in in Hr as (p & Hp & ->). simpl in *. split; auto. exists p, l'. auto. Qed.
  Lemma is_rule_of A l : is_rule (gram s) A l -> A = 0 /\ exists p, In p cs /\ rhs (fst p) = l.
  Proof. intros H. apply gram_in in H as (p & Hp & H). injection H as -> ->. split; auto. exists p. auto. Qed.
  Lemma operator_token p q m : In p cs -> In q cs -> In m (more_tokens (fst p)) -> left_operand (fst q) = true -> first_token (fst q) <> m.
  Proof. intros Hp Hq Hm Hl <-. destruct HD as (_ & _ & H). apply (H p _ Hp Hm). rewrite <- Hl. apply in_firsts. auto. Qed.

  Lemma flat_apart : told_apart (gram s).
  Proof.
    split.
    - intros r Hr. apply gram_in in Hr as (p & _ & ->). simpl. unfold rhs. destruct (pre (fst p)); discriminate.
    - intros r A Hr. apply gram_in in Hr as (p & _ & ->). simpl. unfold rhs, pre. destruct (left_operand (fst p)); discriminate.
    - intros r l A B l' Hr H. apply gram_in in Hr as (p & _ & ->). simpl in H. unfold rhs in H.
      assert (G : forall ms l, mids ms ++ post (fst p) <> l ++ NT A :: NT B :: l').
      { induction ms as [|m ms IH]; intros l0 G; simpl in G; [unfold post in G; destruct (right_operand (fst p)); destruct l0 as [|? [|? ?]]; discriminate|].
        destruct l0 as [|X [|Y l0]]; try discriminate. injection G as _ _ G. exact (IH _ G). }
      unfold pre in H. destruct (left_operand (fst p)); simpl in H.
      + destruct l as [|X [|Y l]]; try discriminate. injection H as _ _ H. exact (G _ _ H).
      + destruct l as [|Y l]; try discriminate. injection H as _ H. exact (G _ _ H).
    - intros r A l Hr H. apply gram_in in Hr as (p & _ & ->). simpl in *. unfold rhs, pre in H. destruct (left_operand (fst p)); simpl in H; try discriminate. injection H as <- _. auto.
    - intros A l A' l' t H1 H2 N1 N2. apply begins_of in H1 as [-> (p & l1 & Hp & H1)], H2 as [-> (q & l2 & Hq & H2)]. split; auto. rewrite <- app_assoc in H1, H2. simpl in H1, H2.
      apply rhs_cut in H1 as [[-> E1]|(m & a & y & _ & _ & ->)]; [|destruct N1; exists (a ++ [TM y]), 0; rewrite <- app_assoc; auto].
      apply rhs_cut in H2 as [[-> E2]|(m & a & y & _ & _ & ->)]; [|destruct N2; exists (a ++ [TM y]), 0; rewrite <- app_assoc; auto].
      unfold pre in *. destruct (left_operand (fst p)); [destruct N1; exists [], 0; auto|]. destruct (left_operand (fst q)); [destruct N2; exists [], 0; auto|]. auto.
    - intros A l B A' l' B' t H1 H2 Hor. apply begins_of in H1 as [-> (p & l1 & Hp & H1)], H2 as [-> (q & l2 & Hq & H2)]. split; auto. rewrite <- !app_assoc in H1, H2. simpl in H1, H2.
      destruct Hor as [->|Hor].
      + pose proof (rhs_cut (fst p) [NT B] t l1 H1) as [[Ep Et]|(m & a & y & _ & _ & F)]; [|destruct a as [|? [|? ?]]; discriminate].
        unfold pre in Ep. destruct (left_operand (fst p)) eqn:Lp; [|discriminate]. injection Ep as ->.
        change (l' ++ NT B' :: TM t :: l2) with (l' ++ [NT B'] ++ TM t :: l2) in H2. rewrite app_assoc in H2. apply rhs_cut in H2 as [[Eq Et']|(m & a & y & -> & Hm & F)].
        * unfold pre in Eq. destruct (left_operand (fst q)); [|destruct l'; discriminate]. destruct l' as [|? [|? ?]]; try discriminate. injection Eq as ->. auto.
        * exfalso. injection Et as Et. eapply (operator_token q p m); auto.
      + exfalso. apply is_rule_of in Hor as [_ (p' & Hp' & H3)].
        assert (Hpp : p' = p). { apply (head_same p' p (l ++ [NT B]) [] (TM t :: l1)); auto; [rewrite app_nil_r; auto|rewrite <- app_assoc; auto|destruct l; discriminate|]. rewrite <- H3. unfold rhs, pre. destruct (left_operand (fst p')); discriminate. }
        subst p'. rewrite H3 in H1. rewrite <- (app_nil_r (l ++ [NT B])), <- app_assoc in H1. apply app_inv_head in H1. discriminate.
    - intros A l t H1 N1 (A' & l' & H2 & H3). apply is_rule_of in H1 as [-> (p & Hp & H1)].
      assert (G : forall X l2 q, In q cs -> rhs (fst q) <> l ++ X :: l2).
      { intros X l2 q Hq Hr. assert (p = q); [|subst q; rewrite H1, <- (app_nil_r l), <- app_assoc in Hr; apply app_inv_head in Hr; discriminate].
        apply (head_same p q l [] (X :: l2)); auto; [rewrite app_nil_r; auto|rewrite <- H1; unfold rhs; destruct (pre (fst p)); discriminate|]. rewrite <- H1. unfold rhs, pre. destruct (left_operand (fst p)); discriminate. }
      split.
      + intros H. apply begins_of in H as [_ (q & l2 & Hq & H)]. rewrite <- app_assoc in H. exact (G _ _ _ Hq H).
      + intros B H. apply begins_of in H as [_ (q & l2 & Hq & H)]. rewrite <- app_assoc in H. destruct (G _ _ _ Hq H).
  Qed.

  (** ** One reading *)
  Definition no_op (r : list T) : Prop := match r with [] => True | x :: _ => ~ In (tix x) (firsts_of true cs) end.
  Definition no_post (r : list T) : Prop := match r with [] => True | x :: _ => forall p, In p cs -> left_operand (fst p) = true -> first_token (fst p) = tix x -> right_operand (fst p) = true end.
  Lemma no_op_post r : no_op r -> no_post r.
  Proof. destruct r as [|x r]; simpl; auto. intros H p Hp Hl Hx. destruct H. rewrite <- Hx, <- Hl. apply in_firsts. auto. Qed.

  (** an operand is a closed construct and postfixes *)
  Inductive posts : N -> list T -> N -> Prop :=
  | posts_end v : posts v [] v
  | posts_next c g a x u args v u' v' : In (c, g) cs -> left_operand c = true -> right_operand c = false -> tix x = first_token c ->
      middle tix cs (more_tokens c) u args -> g (NonTerminal a :: Terminal x :: args) = GOk v -> posts v u' v' -> posts a (x :: u ++ u') v'.
  Lemma posts_snoc a u v : posts a u v -> forall c g x u' args v', In (c, g) cs -> left_operand c = true -> right_operand c = false -> tix x = first_token c ->
      middle tix cs (more_tokens c) u' args -> g (NonTerminal v :: Terminal x :: args) = GOk v' -> posts a (u ++ x :: u') v'.
  Proof.
    induction 1 as [v|c g a x u args v u' v' Hc Hl Hr Hx Hm Hg Hp IH]; intros c0 g0 x0 u0 args0 v0 A B C D F G.
    - simpl. rewrite <- (app_nil_r u0). apply (posts_next c0 g0 v x0 u0 args0 v0 [] v0); auto. constructor.
    - simpl. rewrite <- app_assoc. apply (posts_next c g a x u args v); auto. eapply IH; eauto.
  Qed.
  Lemma operand_posts u v : operand tix cs u v -> exists c g x u1 args a u2, In (c, g) cs /\ left_operand c = false /\ right_operand c = false /\ tix x = first_token c /\
    middle tix cs (more_tokens c) u1 args /\ g (Terminal x :: args) = GOk a /\ posts a u2 v /\ u = x :: u1 ++ u2.
  Proof.
    intros H. induction H as [c g x u args v Hc Hl Hr Hx Hm Hg|c g u0 a x u args v Hc Hl Hr Ho IH Hx Hm Hg].
    - exists c, g, x, u, args, v, []. rewrite app_nil_r. repeat split; auto. constructor.
    - destruct IH as (c0 & g0 & x0 & u1 & args0 & a0 & u2 & I1 & I2 & I3 & I4 & I5 & I6 & I7 & ->). exists c0, g0, x0, u1, args0, a0, (u2 ++ x :: u). repeat split; auto; [apply (posts_snoc _ _ _ I7 c g x u args v); auto|]. simpl. rewrite <- app_assoc. auto.
  Qed.

  Definition uniq_w n := forall u v u' v' r r', length u <= n -> whole tix cs u v -> whole tix cs u' v' -> u ++ r = u' ++ r' -> no_op r -> no_op r' -> u = u' /\ v = v'.
  Lemma uniq_mid n : uniq_w n -> forall ms u args, middle tix cs ms u args -> length u <= n -> (forall m, In m ms -> ~ In m (firsts_of true cs)) ->
    forall u' args' r r', middle tix cs ms u' args' -> u ++ r = u' ++ r' -> u = u' /\ args = args'.
  Proof.
    intros IH ms u args H. induction H as [|ms u v x u1 args Hw Hm IHm]; intros Hn Hops u' args' r r' H' Eu.
    - inversion H'; subst. auto.
    - inversion H' as [|ms' u2 v2 x2 u3 args2 Hw2 Hm2 Ex]; subst. rewrite <- !app_assoc in Eu. simpl in Eu. rewrite app_length in Hn. simpl in Hn.
      destruct (IH u v u2 v2 (x :: u1 ++ r) (x2 :: u3 ++ r')) as [-> ->]; auto; [lia|apply Hops; simpl; auto|change (~ In (tix x2) (firsts_of true cs)); rewrite Ex; apply Hops; simpl; auto|].
      apply app_inv_head in Eu. injection Eu as -> Eu. destruct (IHm ltac:(lia) (fun m Hm' => Hops m (or_intror Hm')) u3 args2 r r') as [-> ->]; auto.
  Qed.
  Lemma mid_ops c g : In (c, g) cs -> forall m, In m (more_tokens c) -> ~ In m (firsts_of true cs).
  Proof. intros Hc m Hm. destruct HD as (_ & _ & H). exact (H _ m Hc Hm). Qed.
  Lemma uniq_posts n : uniq_w n -> forall a u v, posts a u v -> length u <= n -> forall u' v' r r', posts a u' v' -> u ++ r = u' ++ r' -> no_post r -> no_post r' -> u = u' /\ v = v'.
  Proof.
    intros IH a u v H. induction H as [v|c g a x u args v u1 v1 Hc Hl Hr Hx Hm Hg Hp IHp]; intros Hn u' v' r r' H' Eu Nr Nr'.
    - inversion H' as [|c g a0 x u args v0 u1 v1 Hc Hl Hr Hx Hm Hg Hp]; subst; auto. exfalso. simpl in Eu. subst r. simpl in Nr. specialize (Nr (c, g) Hc Hl (eq_sym Hx)). simpl in Nr. congruence.
    - inversion H' as [|c' g' a0 x' u0 args' v0 u1' v1' Hc' Hl' Hr' Hx' Hm' Hg' Hp']; subst.
      + exfalso. simpl in Eu. subst r'. simpl in Nr'. specialize (Nr' (c, g) Hc Hl (eq_sym Hx)). simpl in Nr'. congruence.
      + simpl in Eu. injection Eu as -> Eu. rewrite <- !app_assoc in Eu. assert (Ecc : (c, g) = (c', g')) by (apply same_first; simpl; congruence). injection Ecc as <- <-. simpl in Hn. rewrite app_length in Hn.
        destruct (uniq_mid n IH _ _ _ Hm ltac:(lia) (mid_ops _ _ Hc) u0 args' _ _ Hm' Eu) as [-> ->]. apply app_inv_head in Eu. assert (v = v0) by congruence. subst v0.
        destruct (IHp ltac:(lia) u1' v' r r' Hp' Eu Nr Nr') as [-> ->]. auto.
  Qed.
  Lemma uniq_operand n : uniq_w n -> forall u v u' v' r r', length u <= S n -> operand tix cs u v -> operand tix cs u' v' -> u ++ r = u' ++ r' -> no_post r -> no_post r' -> u = u' /\ v = v'.
  Proof.
    intros IH u v u' v' r r' Hn H H' Eu Nr Nr'.
    apply operand_posts in H as (c & g & x & u1 & args & a & u2 & Hc & Hl & Hr & Hx & Hm & Hg & Hp & ->). apply operand_posts in H' as (c' & g' & x' & u1' & args' & a' & u2' & Hc' & Hl' & Hr' & Hx' & Hm' & Hg' & Hp' & ->).
    simpl in Eu. injection Eu as -> Eu. rewrite <- !app_assoc in Eu. assert (Ecc : (c, g) = (c', g')) by (apply same_first; simpl; congruence). injection Ecc as <- <-. simpl in Hn. rewrite app_length in Hn.
    destruct (uniq_mid n IH _ _ _ Hm ltac:(lia) (mid_ops _ _ Hc) u1' args' _ _ Hm' Eu) as [-> ->]. apply app_inv_head in Eu. assert (a = a') by congruence. subst a'.
    destruct (uniq_posts n IH _ _ _ Hp ltac:(lia) u2' v' r r' Hp' Eu Nr Nr') as [-> ->]. auto.
  Qed.
  Lemma infix_post c g x r : In (c, g) cs -> left_operand c = true -> right_operand c = true -> tix x = first_token c -> no_post (x :: r).
  Proof. intros Hc Hl Hr Hx p Hp Hlp Hfp. assert (p = (c, g)) as -> by (apply same_first; simpl; congruence). auto. Qed.
  Lemma infix_op c g x r : In (c, g) cs -> left_operand c = true -> tix x = first_token c -> ~ no_op (x :: r).
  Proof. intros Hc Hl Hx H. simpl in H. apply H. rewrite Hx, <- Hl. apply (in_firsts (c, g) Hc). Qed.
  Lemma operand_first u v r : operand tix cs u v -> forall x r', u ++ r = x :: r' -> exists c g, In (c, g) cs /\ left_operand c = false /\ right_operand c = false /\ tix x = first_token c.
  Proof. intros H x r' Eu. apply operand_posts in H as (c & g & x0 & u1 & args & a & u2 & Hc & Hl & Hr & Hx & _ & _ & _ & ->). injection Eu as -> _. exists c, g. auto. Qed.
  Lemma uniq n : uniq_w n.
  Proof.
    induction n as [|n IH]; intros u v u' v' r r' Hn H H' Eu Nr Nr'.
    - exfalso. assert (u = []) by (destruct u; simpl in Hn; [auto|lia]). subst u. inversion H as [u0 v0 Ho|c g x u args u'' b v0 Hc|c g u0 a x u args u'' b v0 Hc]; subst; try (destruct u0; discriminate).
      apply operand_posts in Ho as (c & g & x & u1 & args & a & u2 & _ & _ & _ & _ & _ & _ & _ & F). discriminate.
    - inversion H as [u0 v0 Ho|c g x u1 args u2 b v0 Hc Hl Hr Hx Hm Hw Hg|c g u0 a x u1 args u2 b v0 Hc Hl Hr Ho Hx Hm Hw Hg]; subst.
      + inversion H' as [u0 v0 Ho'|c' g' x' u1' args' u2' b' v0 Hc' Hl' Hr' Hx' Hm' Hw' Hg'|c' g' u0' a' x' u1' args' u2' b' v0 Hc' Hl' Hr' Ho' Hx' Hm' Hw' Hg']; subst.
        * eapply uniq_operand; eauto using no_op_post.
        * exfalso. destruct (operand_first _ _ r Ho _ _ Eu) as (c & g & A & B & C & D). assert (F : (c, g) = (c', g')) by (apply same_first; simpl; congruence). congruence.
        * exfalso. rewrite <- app_assoc in Eu. destruct (uniq_operand n IH u v u0' a' r (x' :: (u1' ++ u2') ++ r') Hn Ho Ho' Eu (no_op_post _ Nr)) as [-> _]; [eapply infix_post; eauto|].
          apply app_inv_head in Eu. subst r. eapply infix_op; eauto.
      + inversion H' as [u0 v0 Ho'|c' g' x' u1' args' u2' b' v0 Hc' Hl' Hr' Hx' Hm' Hw' Hg'|c' g' u0' a' x' u1' args' u2' b' v0 Hc' Hl' Hr' Ho' Hx' Hm' Hw' Hg']; subst.
        * exfalso. symmetry in Eu. destruct (operand_first _ _ r' Ho' _ _ Eu) as (c' & g' & A & B & C & D). assert (F : (c, g) = (c', g')) by (apply same_first; simpl; congruence). congruence.
        * simpl in Eu. injection Eu as -> Eu. rewrite <- !app_assoc in Eu. assert (Ecc : (c, g) = (c', g')) by (apply same_first; simpl; congruence). injection Ecc as <- <-. simpl in Hn. rewrite app_length in Hn.
          destruct (uniq_mid n IH _ _ _ Hm ltac:(lia) (mid_ops _ _ Hc) u1' args' _ _ Hm' Eu) as [-> ->]. apply app_inv_head in Eu. destruct (IH u2 b u2' b' r r') as [-> ->]; auto; [lia|]. split; auto. congruence.
        * exfalso. rewrite <- app_assoc in Eu. simpl in Eu. symmetry in Eu. destruct (operand_first _ _ _ Ho' _ _ Eu) as (c0 & g0 & A & B & C & D). assert (F : (c, g) = (c0, g0)) by (apply same_first; simpl; congruence). congruence.
      + rewrite <- app_assoc in Eu. simpl in Eu. rewrite app_length in Hn. simpl in Hn. rewrite app_length in Hn.
        inversion H' as [u0' v0 Ho'|c' g' x' u1' args' u2' b' v0 Hc' Hl' Hr' Hx' Hm' Hw' Hg'|c' g' u0' a' x' u1' args' u2' b' v0 Hc' Hl' Hr' Ho' Hx' Hm' Hw' Hg']; subst.
        * exfalso. destruct (uniq_operand n IH u0 a u' v' (x :: (u1 ++ u2) ++ r) r' ltac:(lia) Ho Ho' Eu) as [-> _]; [eapply infix_post; eauto|apply no_op_post; auto|]. apply app_inv_head in Eu. subst r'. eapply infix_op; eauto.
        * exfalso. destruct (operand_first _ _ _ Ho _ _ Eu) as (c0 & g0 & A & B & C & D). assert (F : (c0, g0) = (c', g')) by (apply same_first; simpl; congruence). congruence.
        * repeat (rewrite <- !app_assoc in Eu; simpl in Eu). destruct (uniq_operand n IH u0 a u0' a' (x :: u1 ++ u2 ++ r) (x' :: u1' ++ u2' ++ r') ltac:(lia) Ho Ho' Eu) as [-> ->]; [apply (infix_post c g); auto|apply (infix_post c' g'); auto|].
          apply app_inv_head in Eu. injection Eu as -> Eu. assert (Ecc : (c, g) = (c', g')) by (apply same_first; simpl; congruence). injection Ecc as <- <-.
          destruct (uniq_mid n IH _ _ _ Hm ltac:(lia) (mid_ops _ _ Hc) u1' args' _ _ Hm' Eu) as [-> ->]. apply app_inv_head in Eu. destruct (IH u2 b u2' b' r r') as [-> ->]; auto; [lia|]. split; auto. congruence.
  Qed.
  Lemma whole_one w v v' : whole tix cs w v -> whole tix cs w v' -> v = v'.
  Proof. intros H H'. destruct (uniq (length w) w v w v' [] []) as [_ F]; simpl; auto. Qed.

  (** ** Readings are derivations *)
  Lemma whole_der : (forall u v, whole tix cs u v -> der (gram s) E0 (kinds tix u)) /\ (forall u v, operand tix cs u v -> der (gram s) E0 (kinds tix u)) /\
    (forall ms u args, middle tix cs ms u args -> ders (gram s) (mids ms) (kinds tix u)).
  Proof.
    assert (R : forall c g z, In (c, g) cs -> ders (gram s) (rhs c) z -> der (gram s) E0 z).
    { intros c g z Hc Hz. apply (der_rule (gram s) (mk_rule 0 (rhs c))); auto. apply gram_in. exists (c, g). auto. }
    assert (K : forall a b, kinds tix (a ++ b) = kinds tix a ++ kinds tix b) by (intros; apply map_app).
    assert (J : forall l l' z z', ders (gram s) l z -> ders (gram s) l' z' -> ders (gram s) (l ++ l') (z ++ z')).
    { intros l l' z z' H. induction H; simpl; auto. rewrite <- app_assoc. intros. constructor; auto. }
    assert (O : forall z, der (gram s) E0 z -> ders (gram s) [E0] z). { intros z Hz. rewrite <- (app_nil_r z). constructor; auto. constructor. }
    apply whole_operand_middle_ind; auto.
    - intros c g x u args u' b v Hc Hl Hr Hx _ IH _ IH' _. apply (R c g); auto. unfold rhs, pre, post. rewrite Hl, Hr, <- Hx. simpl. rewrite K. change (TSym (tix x) :: kinds tix u ++ kinds tix u') with ([TSym (tix x)] ++ kinds tix u ++ kinds tix u'). constructor; [constructor|]. apply J; auto.
    - intros c g u0 a x u args u' b v Hc Hl Hr _ IH0 Hx _ IH _ IH' _. apply (R c g); auto. unfold rhs, pre, post. rewrite Hl, Hr, <- Hx. rewrite K. apply J; auto. simpl. rewrite K. change (TSym (tix x) :: kinds tix u ++ kinds tix u') with ([TSym (tix x)] ++ kinds tix u ++ kinds tix u'). constructor; [constructor|]. apply J; auto.
    - intros c g x u args v Hc Hl Hr Hx _ IH _. apply (R c g); auto. unfold rhs, pre, post. rewrite Hl, Hr, <- Hx. simpl. rewrite app_nil_r. change (TSym (tix x) :: kinds tix u) with ([TSym (tix x)] ++ kinds tix u). constructor; [constructor|]. auto.
    - intros c g u0 a x u args v Hc Hl Hr _ IH0 Hx _ IH _. apply (R c g); auto. unfold rhs, pre, post. rewrite Hl, Hr, <- Hx. rewrite K. apply J; auto. simpl. rewrite app_nil_r. change (TSym (tix x) :: kinds tix u) with ([TSym (tix x)] ++ kinds tix u). constructor; [constructor|]. auto.
    - constructor.
    - intros ms u v x u' args _ IH _ IH'. simpl. rewrite K. constructor; auto. simpl. change (TSym (tix x) :: kinds tix u') with ([TSym (tix x)] ++ kinds tix u'). constructor; [constructor|auto].
  Qed.

  (** ** A tree in which no construct that ends with an operand is a left operand is a reading *)
  Section TreeRead.
    Variable w : list T.
    Definition text (t : tree) : list T := flat_map (fun i => match nth_error w i with Some x => [x] | None => [] end) (leaves t).
    Definition texts (ts : list tree) : list T := flat_map text ts.
    Lemma text_node k ts : text (Node k ts) = texts ts.
    Proof. unfold text, texts. cbn [leaves]. induction ts as [|t ts IH]; simpl; auto. rewrite flat_map_app, IH. auto. Qed.
    Definition grouped_right (t : tree) : Prop := forall k1 k2 A b l1 l2 ts1 ts2, nth_error (gram s) k1 = Some (mk_rule A (l1 ++ [NT A])) -> nth_error (gram s) k2 = Some (mk_rule A (NT A :: TM b :: l2)) ->
      ~ occurs (Node k2 (Node k1 ts1 :: ts2)) t.
    Definition closed (t : tree) : Prop := exists k ts p, t = Node k ts /\ nth_error cs k = Some p /\ right_operand (fst p) = false.
    Definition read (X : sym) (t : tree) : Prop :=
      match X with
      | NT _ => grouped_right t -> forall a, ev (gens s) w t = GOk a -> exists v, a = NonTerminal v /\ whole tix cs (text t) v /\ (closed t -> operand tix cs (text t) v) /\ (forall k ts p, t = Node k ts -> nth_error cs k = Some p -> right_operand (fst p) = true -> exists l1, rhs (fst p) = l1 ++ [E0]) /\ exists k ts p, t = Node k ts /\ nth_error cs k = Some p
      | TM (TSym m) => exists i x, t = Leaf i /\ nth_error w i = Some x /\ tix x = m
      | TM _ => True
      end.
    Lemma gmap_ok {A B} (f : A -> gres B E) l bs : gmap f l = GOk bs -> Forall2 (fun a b => f a = GOk b) l bs.
    Proof.
      revert bs. induction l as [|a l IH]; intros bs H; simpl in H; [injection H as <-; constructor|]. destruct (f a) as [b| |] eqn:Ea; try discriminate. simpl in H. destruct (gmap f l) as [bs'| |]; try discriminate. simpl in H. injection H as <-. constructor; auto.
    Qed.
    Lemma read_mids ms : forall l ts args, Forall2 read (mids ms ++ l) ts -> Forall grouped_right ts -> Forall2 (fun t a => ev (gens s) w t = GOk a) ts args ->
      exists ts2 u args1 args2, args = args1 ++ args2 /\ middle tix cs ms u args1 /\ Forall2 read l ts2 /\ Forall grouped_right ts2 /\ Forall2 (fun t a => ev (gens s) w t = GOk a) ts2 args2 /\ texts ts = u ++ texts ts2.
    Proof.
      induction ms as [|m ms IH]; intros l ts args Hr Hg He; simpl in Hr.
      - exists ts, [], [], args. repeat split; auto. constructor.
      - inversion Hr as [|X t l0 ts0 R1 R2]; subst. inversion R2 as [|X t' l0 ts1 R3 R4]; subst. inversion Hg as [|? ? G1 G2]; subst. inversion G2 as [|? ? G3 G4]; subst. inversion He as [|? a ? args0 E1 E2]; subst. inversion E2 as [|? a' ? args1 E3 E4]; subst.
        destruct (R1 G1 _ E1) as (v & -> & Hw & _). destruct R3 as (i & x & -> & Hi & <-). simpl in E3. rewrite Hi in E3. injection E3 as <-.
        destruct (IH l ts1 args1 R4 G4 E4) as (ts2 & u & b1 & b2 & -> & A & B & C & D & F). exists ts2, (text t ++ x :: u), (NonTerminal v :: Terminal x :: b1), b2. split; auto. split; [constructor; auto|]. repeat split; auto.
        simpl. rewrite F. unfold text at 2. simpl. rewrite Hi. simpl. rewrite <- app_assoc. reflexivity.
    Qed.
    Lemma grouped_child k ts : grouped_right (Node k ts) -> Forall grouped_right ts.
    Proof.
      intros H. apply Forall_forall. intros t Ht k1 k2 A b l1 l2 ts1 ts2 H1 H2 Ho. apply in_split in Ht as (a & c & ->). eapply H; eauto. apply occ_in. exact Ho.
    Qed.
    Lemma tree_read : (forall X t, twf tix (gram s) w X t -> read X t) /\ (forall l ts, twfs tix (gram s) w l ts -> Forall2 read l ts).
    Proof.
      apply twf_twfs_ind; simpl; auto; [intros i x Hi; exists i, x; auto|].
      intros k r ts Hr _ IH Hgr a Ha. rewrite gram_nth in Hr. destruct (nth_error cs k) as [p|] eqn:Ep; [|discriminate]. injection Hr as <-. cbn [r_rhs] in IH.
      cbn [ev] in Ha. destruct (gmap (ev (gens s) w) ts) as [args| |] eqn:Eg; try discriminate. simpl in Ha. unfold call in Ha. rewrite gens_nth, Ep in Ha. destruct (snd p args) as [v| |] eqn:Ev; try discriminate. simpl in Ha. injection Ha as <-.
      apply gmap_ok in Eg. pose proof (grouped_child _ _ Hgr) as Hch. rewrite text_node. exists v. split; auto.
      assert (Hin : In (fst p, snd p) cs) by (rewrite <- surjective_pairing; eapply nth_error_In; eauto).
      assert (Hend : right_operand (fst p) = true -> exists l1, rhs (fst p) = l1 ++ [E0]).
      { intros F. unfold rhs, post. rewrite F. exists (pre (fst p) ++ TM (TSym (first_token (fst p))) :: mids (more_tokens (fst p))). rewrite <- app_assoc. reflexivity. }
      assert (G : whole tix cs (texts ts) v /\ (right_operand (fst p) = false -> operand tix cs (texts ts) v)).
      { unfold rhs, pre in IH. destruct (left_operand (fst p)) eqn:El; simpl in IH.
        - inversion IH as [|? t0 ? ts0 R0 R1]; subst. inversion R1 as [|? t1 ? ts1 R2 R3]; subst. inversion Hch as [|? ? G0 G1]; subst. inversion G1 as [|? ? G2 G3]; subst. inversion Eg as [|? a0 ? args0 E0' E1]; subst. inversion E1 as [|? a1 ? args1 E2 E3]; subst.
          destruct (R0 G0 _ E0') as (v0 & -> & _ & Hop & Hopen & (k0 & ts' & p0 & -> & Ep0)). destruct R2 as (i & x & -> & Hi & Hx). simpl in E2. rewrite Hi in E2. injection E2 as <-.
          assert (O0 : operand tix cs (text (Node k0 ts')) v0).
          { apply Hop. exists k0, ts', p0. split; auto. split; auto. destruct (right_operand (fst p0)) eqn:Er; auto. exfalso. destruct (Hopen k0 ts' p0 eq_refl Ep0 Er) as (l1 & Hl1).
            eapply (Hgr k0 k 0 (TSym (first_token (fst p))) l1 (mids (more_tokens (fst p)) ++ post (fst p))); [rewrite gram_nth, Ep0, Hl1; auto|rewrite gram_nth, Ep; unfold rhs, pre; rewrite El; auto|apply occ_here]. }
          destruct (read_mids _ _ _ _ R3 G3 E3) as (ts2 & u & b1 & b2 & -> & Hm & R4 & G4 & E4 & Ht).
          assert (Et : texts (Node k0 ts' :: Leaf i :: ts1) = text (Node k0 ts') ++ x :: u ++ texts ts2). { simpl. rewrite Ht. unfold text at 2. simpl. rewrite Hi. auto. }
          rewrite Et. unfold post in R4. destruct (right_operand (fst p)) eqn:Er.
          + inversion R4 as [|? t2 ? ts3 R5 R6]; subst. inversion R6; subst. inversion E4 as [|? a2 ? args3 E5 E6]; subst. inversion E6; subst. inversion G4; subst. destruct (R5 ltac:(auto) _ E5) as (b & -> & Hw & _). split; [|discriminate].
            simpl. rewrite app_nil_r. eapply whole_infix; eauto.
          + inversion R4; subst. inversion E4; subst. rewrite app_nil_r in Ev. simpl. rewrite app_nil_r. assert (O1 : operand tix cs (text (Node k0 ts') ++ x :: u) v) by (eapply operand_postfix; eauto). split; [apply whole_operand|]; auto.
        - inversion IH as [|? t1 ? ts1 R2 R3]; subst. inversion Hch as [|? ? G2 G3]; subst. inversion Eg as [|? a1 ? args1 E2 E3]; subst.
          destruct R2 as (i & x & -> & Hi & Hx). simpl in E2. rewrite Hi in E2. injection E2 as <-.
          destruct (read_mids _ _ _ _ R3 G3 E3) as (ts2 & u & b1 & b2 & -> & Hm & R4 & G4 & E4 & Ht).
          assert (Et : texts (Leaf i :: ts1) = x :: u ++ texts ts2). { simpl. rewrite Ht. unfold text at 1. simpl. rewrite Hi. auto. }
          rewrite Et. unfold post in R4. destruct (right_operand (fst p)) eqn:Er.
          + inversion R4 as [|? t2 ? ts3 R5 R6]; subst. inversion R6; subst. inversion E4 as [|? a2 ? args3 E5 E6]; subst. inversion E6; subst. inversion G4; subst. destruct (R5 ltac:(auto) _ E5) as (b & -> & Hw & _). split; [|discriminate].
            simpl. rewrite app_nil_r. eapply whole_prefix; eauto.
          + inversion R4; subst. inversion E4; subst. rewrite app_nil_r in Ev. simpl. rewrite app_nil_r. assert (O1 : operand tix cs (x :: u) v) by (eapply operand_closed; eauto). split; [apply whole_operand|]; auto. }
      destruct G as [G1 G2]. split; auto. split; [|split].
      - intros (k' & ts' & p' & Hk & Hp' & Hr'). injection Hk as <- <-. apply G2. congruence.
      - intros k' ts' p' Hk Hp' Hr'. injection Hk as <- <-. assert (p' = p) by congruence. subst. auto.
      - exists k, ts, p. auto.
    Qed.
    Lemma text_all t : leaves t = seq 0 (length w) -> text t = w.
    Proof.
      intros H. unfold text. rewrite H. clear H. assert (G : forall u pos, skipn pos w = u -> flat_map (fun i => match nth_error w i with Some x => [x] | None => [] end) (seq pos (length u)) = u).
      { induction u as [|x u IHu]; intros pos Hu; auto. assert (Hx : nth_error w pos = Some x) by (rewrite <- (firstn_skipn pos w), Hu, nth_error_app2; rewrite firstn_length; [|lia]; replace (pos - Nat.min pos (length w)) with 0; auto; assert (pos < length w); [|lia]; destruct (Nat.lt_ge_cases pos (length w)) as [|F]; auto; apply skipn_all2 in F; congruence).
        simpl. rewrite Hx. simpl. f_equal. apply IHu. replace (S pos) with (pos + 1) by lia. rewrite <- skipn_sum, Hu. auto. }
      apply (G w 0). auto.
    Qed.
  End TreeRead.
End FlatProofs.
