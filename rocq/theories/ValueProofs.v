(** * Values of pieces of the input and derivation trees *)
From Coq Require Import List Arith Lia Bool.
From Verif Require Import Lib Grammar LrModel ParseModel Trees ParseSpec ParseInv PropRecover StmtSpec.
Import ListNotations.

Lemma seq_cut (l1 l2 : list nat) a n : l1 ++ l2 = seq a n -> l1 = seq a (length l1) /\ l2 = seq (a + length l1) (n - length l1) /\ length l1 <= n.
Proof.
  revert a n. induction l1 as [|x l1 IH]; intros a n H; simpl in *.
  - rewrite Nat.add_0_r, Nat.sub_0_r. split; auto. split; auto. lia.
  - destruct n as [|n]; [discriminate|]. simpl in H. injection H as -> H. apply IH in H as (H1 & H2 & H3). split; [simpl; f_equal; auto|]. split; [|lia]. rewrite H2 at 1. f_equal. lia.
Qed.
Lemma firstn_sum {A} n m (l : list A) : firstn (n + m) l = firstn n l ++ firstn m (skipn n l).
Proof. revert l. induction n as [|n IH]; intros [|x l]; simpl; auto; [destruct m; auto|]. f_equal. apply IH. Qed.
Lemma skipn_sum {A} a b (l : list A) : skipn a (skipn b l) = skipn (b + a) l.
Proof. revert l. induction b as [|b IH]; intros [|x l]; simpl; auto. destruct a; auto. Qed.

Section Values.
  Context {N T E : Type} (tix : T -> nat) (s : syntax N T E).

  Lemma rule_gen k r : nth_error (gram s) k = Some r -> exists c, nth_error (sx_rules s) k = Some c /\ cr_rule c = r /\ nth_error (gens s) k = Some (cr_gen c).
  Proof.
    unfold gram, gens. rewrite !nth_error_map. destruct (nth_error (sx_rules s) k) as [c|]; [|discriminate]. simpl. intros H. injection H as <-. eauto.
  Qed.

  Lemma tree_values w : (forall Y t, twf tix (gram s) w Y t -> forall pos n a, clean t = true -> leaves t = seq pos n -> ev (gens s) w t = GOk a -> value tix (sx_rules s) Y (firstn n (skipn pos w)) a) /\
    (forall l ts, twfs tix (gram s) w l ts -> forall pos n args, forallb clean ts = true -> flat_map leaves ts = seq pos n -> gmap (ev (gens s) w) ts = GOk args -> values tix (sx_rules s) l (firstn n (skipn pos w)) args).
  Proof.
    apply twf_twfs_ind.
    - intros i x Hx pos n a _ Hl He. simpl in Hl, He. destruct n as [|[|n]]; try discriminate. injection Hl as ->. rewrite Hx in He. injection He as <-.
      rewrite (skipn_cons _ _ _ Hx). simpl. constructor.
    - intros lo hi _ _ pos n a Hc. discriminate.
    - intros k r ts Hr _ IH pos n a Hc Hl He. destruct (rule_gen _ _ Hr) as (c & Hk & <- & Hg). simpl in Hl, He, Hc.
      destruct (gmap _ ts) as [args| |] eqn:Eg; try discriminate. simpl in He. unfold call in He. rewrite Hg in He. destruct (cr_gen c args) as [v| |] eqn:Ec; try discriminate. simpl in He. injection He as <-.
      econstructor; eauto. eapply nth_error_In; eauto.
    - intros pos n args _ Hl He. simpl in *. destruct n; [|discriminate]. injection He as <-. constructor.
    - intros Y l t ts _ IH1 _ IH2 pos n args Hc Hl He. simpl in Hl, He, Hc. apply andb_prop in Hc as [C1 C2]. apply seq_cut in Hl as (L1 & L2 & L3).
      destruct (ev _ _ t) as [a| |] eqn:Ea; try discriminate. simpl in He. destruct (gmap _ ts) as [args'| |] eqn:Eg; try discriminate. simpl in He. injection He as <-.
      replace n with (length (leaves t) + (n - length (leaves t))) by lia. rewrite firstn_sum, skipn_sum. constructor; auto.
  Qed.

  Lemma values_tree : (forall Y u a, value tix (sx_rules s) Y u a -> forall w pos, firstn (length u) (skipn pos w) = u ->
      exists t, twf tix (gram s) w Y t /\ clean t = true /\ leaves t = seq pos (length u) /\ ev (gens s) w t = GOk a) /\
    (forall l u args, values tix (sx_rules s) l u args -> forall w pos, firstn (length u) (skipn pos w) = u ->
      exists ts, twfs tix (gram s) w l ts /\ forallb clean ts = true /\ flat_map leaves ts = seq pos (length u) /\ gmap (ev (gens s) w) ts = GOk args).
  Proof.
    apply value_values_ind.
    - intros x w pos Hu. assert (Hx : nth_error w pos = Some x).
      { simpl in Hu. rewrite <- (Nat.add_0_r pos), <- nth_skip. destruct (skipn pos w); [discriminate|]. simpl in Hu. injection Hu as ->. reflexivity. }
      exists (Leaf pos). split; [constructor; auto|]. split; auto. split; auto. simpl. rewrite Hx. auto.
    - intros c u args v Hc _ IH Hv w pos Hu. destruct (IH w pos Hu) as (ts & H1 & H2 & H3 & H4). apply In_nth_error in Hc as [k Hk]. exists (Node k ts).
      assert (Hr : nth_error (gram s) k = Some (cr_rule c)) by (unfold gram; rewrite nth_error_map, Hk; auto).
      split; [constructor; auto|]. split; auto. split; auto. simpl. rewrite H4. simpl. unfold call, gens. rewrite nth_error_map, Hk. simpl. rewrite Hv. auto.
    - intros w pos _. exists []. repeat split; auto. constructor.
    - intros Y l u u' a args _ IH1 _ IH2 w pos Hu. rewrite app_length, firstn_sum in Hu.
      assert (Hl : length (firstn (length u) (skipn pos w)) = length u).
      { apply (f_equal (@length _)) in Hu. rewrite !app_length in Hu. pose proof (firstn_le_length (length u) (skipn pos w)). pose proof (firstn_le_length (length u') (skipn (length u) (skipn pos w))). lia. }
      assert (E1 : firstn (length u) (skipn pos w) = u).
      { apply (f_equal (firstn (length u))) in Hu. rewrite !firstn_app, Hl, Nat.sub_diag in Hu. simpl in Hu. rewrite !app_nil_r, firstn_firstn, Nat.min_id, firstn_all in Hu. auto. }
      rewrite E1, skipn_sum in Hu. apply app_inv_head in Hu. destruct (IH1 _ _ E1) as (t & A1 & A2 & A3 & A4), (IH2 _ _ Hu) as (ts & B1 & B2 & B3 & B4).
      exists (t :: ts). split; [constructor; auto|]. simpl. rewrite A2, A3, A4, B2, B3, B4, app_length, seq_app. auto.
  Qed.

  (** the values of a word are the evaluations of its derivation trees *)
  Lemma value_proper w a : value tix (sx_rules s) (NT (sx_start s)) w a <-> exists t, proper_tree tix s w t /\ ev (gens s) w t = GOk a.
  Proof.
    split.
    - intros H. assert (Hw : firstn (length w) (skipn 0 w) = w) by apply firstn_all. destruct (proj1 values_tree _ _ _ H w 0 Hw) as (t & H1 & H2 & H3 & H4). exists t. split; auto. split; auto. split; auto.
    - intros (t & [[H1 H2] H3] & H4). pose proof (proj1 (tree_values w) _ _ H1 0 (length w) a H3 H2 H4) as H. simpl in H. rewrite firstn_all in H. auto.
  Qed.
End Values.
