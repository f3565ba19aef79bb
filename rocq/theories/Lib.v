(** Basic library: results with panics and fuel, ordered types, sorted-list sets
    (modelling [BTreeSet]) and sorted / unsorted association lists (modelling
    [BTreeMap] / [HashMap]).  Nothing here is specific to the code base. *)
From Coq Require Export List Arith NArith Lia Bool Sorting.Sorted Sorting.Permutation.
Export ListNotations.

(** ** Results of modelled Rust functions *)
(** [Ok a]: normal return; [Panic]: a Rust panic; [OutOfFuel]: the loop did not finish
    within the given fuel (a Rust program would still be running). *)
Inductive res (A : Type) : Type := Ok (a : A) | Panic | OutOfFuel.
Arguments Ok {A} a.
Arguments Panic {A}.
Arguments OutOfFuel {A}.

Definition bind {A B} (x : res A) (f : A -> res B) : res B :=
  match x with Ok a => f a | Panic => Panic | OutOfFuel => OutOfFuel end.

Notation "'do' x <- a ; b" := (bind a (fun x => b)) (at level 200, x pattern, a at level 100, b at level 200).

Definition of_opt {A} (o : option A) : res A := match o with Some a => Ok a | None => Panic end.

Fixpoint mapM {A B} (f : A -> res B) (l : list A) : res (list B) :=
  match l with
  | [] => Ok []
  | a :: l' => do b <- f a; do bs <- mapM f l'; Ok (b :: bs)
  end.

Fixpoint foldM {A S} (f : S -> A -> res S) (l : list A) (s : S) : res S :=
  match l with
  | [] => Ok s
  | a :: l' => do s' <- f s a; foldM f l' s'
  end.

Lemma bind_Ok {A B} (x : res A) (f : A -> res B) b :
  bind x f = Ok b -> exists a, x = Ok a /\ f a = Ok b.
Proof. destruct x; simpl; intros H; try discriminate; eauto. Qed.

Lemma of_opt_Ok {A} (o : option A) a : of_opt o = Ok a <-> o = Some a.
Proof. destruct o; simpl; split; congruence. Qed.

Ltac inv_bind :=
  repeat match goal with
  | H : bind _ _ = Ok _ |- _ => apply bind_Ok in H; destruct H as [? [? H]]
  | H : Ok _ = Ok _ |- _ => inversion H; clear H; subst
  | H : of_opt _ = Ok _ |- _ => apply of_opt_Ok in H
  end.

Lemma mapM_Ok {A B} (f : A -> res B) l bs :
  mapM f l = Ok bs <-> Forall2 (fun a b => f a = Ok b) l bs.
Proof.
  split.
  - revert bs; induction l as [|a l IH]; simpl; intros bs H; inv_bind.
    + constructor.
    + constructor; auto.
  - induction 1 as [|a b l bs H1 H2 IH]; simpl; [reflexivity|]. rewrite H1, IH. reflexivity.
Qed.

Lemma foldM_app {A S} (f : S -> A -> res S) l1 l2 s :
  foldM f (l1 ++ l2) s = bind (foldM f l1 s) (fun s' => foldM f l2 s').
Proof.
  revert s; induction l1 as [|a l1 IH]; simpl; intros s; [reflexivity|].
  destruct (f s a); simpl; auto.
Qed.

(** ** Ordered types *)
Class Ord (A : Type) := {
  cmp : A -> A -> comparison;
  cmp_eq : forall x y, cmp x y = Eq <-> x = y;
  cmp_anti : forall x y, cmp y x = CompOpp (cmp x y);
  cmp_trans : forall x y z, cmp x y = Lt -> cmp y z = Lt -> cmp x z = Lt
}.

Definition lt {A} `{Ord A} (x y : A) : Prop := cmp x y = Lt.
Definition eqb {A} `{Ord A} (x y : A) : bool := match cmp x y with Eq => true | _ => false end.

Section OrdFacts.
  Context {A : Type} `{OA : Ord A}.
  Lemma cmp_refl (x : A) : cmp x x = Eq. Proof. apply cmp_eq; reflexivity. Qed.
  Lemma eqb_eq (x y : A) : eqb x y = true <-> x = y.
  Proof. unfold eqb. rewrite <- (cmp_eq x y). destruct (cmp x y); split; congruence. Qed.
  Lemma eqb_refl (x : A) : eqb x x = true. Proof. apply eqb_eq; reflexivity. Qed.
  Lemma eqb_neq (x y : A) : eqb x y = false <-> x <> y.
  Proof. rewrite <- (eqb_eq x y). destruct (eqb x y); split; congruence. Qed.
  Lemma eqb_spec (x y : A) : reflect (x = y) (eqb x y).
  Proof. destruct (eqb x y) eqn:E; constructor; [apply eqb_eq|apply eqb_neq]; exact E. Qed.
  Lemma eq_dec (x y : A) : {x = y} + {x <> y}.
  Proof. destruct (eqb x y) eqn:E; [left; apply eqb_eq|right; apply eqb_neq]; exact E. Qed.
  Lemma cmp_gt_lt (x y : A) : cmp x y = Gt <-> cmp y x = Lt.
  Proof. rewrite (cmp_anti x y). destruct (cmp x y); simpl; split; congruence. Qed.
  Lemma lt_irrefl (x : A) : ~ lt x x. Proof. unfold lt. rewrite cmp_refl. congruence. Qed.
  Lemma lt_trans (x y z : A) : lt x y -> lt y z -> lt x z. Proof. apply cmp_trans. Qed.
End OrdFacts.

#[global] Program Instance Ord_nat : Ord nat := {| cmp := Nat.compare |}.
Next Obligation. apply Nat.compare_eq_iff. Qed.
Next Obligation. apply Nat.compare_antisym. Qed.
Next Obligation. rewrite Nat.compare_lt_iff in *. lia. Qed.

#[global] Program Instance Ord_N : Ord N := {| cmp := N.compare |}.
Next Obligation. apply N.compare_eq_iff. Qed.
Next Obligation. apply N.compare_antisym. Qed.
Next Obligation. rewrite N.compare_lt_iff in *. lia. Qed.

(** ** Sorted-list sets ([BTreeSet]) *)
Section Sets.
  Context {A : Type} `{OA : Ord A}.

  Fixpoint ins (x : A) (l : list A) : list A :=
    match l with
    | [] => [x]
    | y :: l' => match cmp x y with Lt => x :: l | Eq => l | Gt => y :: ins x l' end
    end.
  Definition mem (x : A) (l : list A) : bool := existsb (eqb x) l.
  (** insert all of [xs] into [l] *)
  Definition ins_all (xs l : list A) : list A := fold_left (fun s x => ins x s) xs l.
  Definition to_set (xs : list A) : list A := ins_all xs [].

  Definition sorted (l : list A) : Prop := StronglySorted lt l.

  Lemma mem_In x l : mem x l = true <-> In x l.
  Proof.
    unfold mem. rewrite existsb_exists. split.
    - intros (y & Hy & E). apply eqb_eq in E. subst; auto.
    - intros Hx. exists x. split; auto. apply eqb_refl.
  Qed.
  Lemma mem_nIn x l : mem x l = false <-> ~ In x l.
  Proof. rewrite <- (mem_In x l). destruct (mem x l); split; congruence. Qed.

  Lemma In_ins x y l : In y (ins x l) <-> y = x \/ In y l.
  Proof.
    induction l as [|z l IH]; simpl.
    - intuition.
    - destruct (cmp x z) eqn:E; simpl.
      + apply cmp_eq in E; subst. intuition.
      + intuition.
      + rewrite IH. intuition.
  Qed.

  Lemma sorted_nil : sorted []. Proof. constructor. Qed.

  Lemma sorted_ins x l : sorted l -> sorted (ins x l).
  Proof.
    unfold sorted. induction l as [|z l IH]; simpl; intros Hs.
    - repeat constructor.
    - inversion Hs as [|? ? Hs' Hz]; subst.
      destruct (cmp x z) eqn:E.
      + exact Hs.
      + constructor; auto. constructor; auto.
        eapply Forall_impl; [|exact Hz]. intros w Hw. eapply lt_trans; eauto.
      + constructor; auto. rewrite Forall_forall in *. intros w Hw.
        apply In_ins in Hw as [->|Hw]; [|auto]. apply cmp_gt_lt; exact E.
  Qed.

  Lemma In_ins_all xs l y : In y (ins_all xs l) <-> In y xs \/ In y l.
  Proof.
    unfold ins_all. revert l; induction xs as [|x xs IH]; simpl; intros l; [tauto|].
    rewrite IH, In_ins. intuition.
  Qed.
  Lemma sorted_ins_all xs l : sorted l -> sorted (ins_all xs l).
  Proof. unfold ins_all. revert l; induction xs as [|x xs IH]; simpl; intros l Hl; auto. apply IH, sorted_ins, Hl. Qed.
  Lemma In_to_set xs y : In y (to_set xs) <-> In y xs.
  Proof. unfold to_set. rewrite In_ins_all. simpl. tauto. Qed.
  Lemma sorted_to_set xs : sorted (to_set xs).
  Proof. apply sorted_ins_all, sorted_nil. Qed.

  Lemma sorted_NoDup l : sorted l -> NoDup l.
  Proof.
    unfold sorted. induction 1 as [|x l Hs IH Hx]; constructor; auto.
    intros Hin. rewrite Forall_forall in Hx. apply (lt_irrefl x). auto.
  Qed.

  Lemma sorted_ext l1 l2 : sorted l1 -> sorted l2 -> (forall x, In x l1 <-> In x l2) -> l1 = l2.
  Proof.
    unfold sorted. intros H1; revert l2. induction H1 as [|x l1 Hs IH Hx]; intros l2 H2 E.
    - destruct l2 as [|y l2]; auto. destruct (proj2 (E y)); simpl; auto.
    - destruct l2 as [|y l2]; [destruct (proj1 (E x)); simpl; auto|].
      inversion H2 as [|? ? Hs2 Hy]; subst. rewrite Forall_forall in Hx, Hy.
      assert (x = y) as ->.
      { destruct (proj1 (E x)) as [|Hin]; simpl; auto.
        destruct (proj2 (E y)) as [|Hin']; simpl; auto.
        exfalso. apply (lt_irrefl x). eapply lt_trans; [apply Hx, Hin'|apply Hy, Hin]. }
      f_equal. apply IH; auto. intros z. split; intros Hz.
      + destruct (proj1 (E z)) as [->|]; simpl; auto. exfalso. apply (lt_irrefl z); auto.
      + destruct (proj2 (E z)) as [->|]; simpl; auto. exfalso. apply (lt_irrefl z); auto.
  Qed.

End Sets.

(** ** Equality test on lists of an ordered type (set equality for sorted lists) *)
Fixpoint list_eqb {A} `{Ord A} (l1 l2 : list A) : bool :=
  match l1, l2 with
  | [], [] => true
  | x :: l1', y :: l2' => eqb x y && list_eqb l1' l2'
  | _, _ => false
  end.
Lemma list_eqb_eq {A} `{Ord A} (l1 l2 : list A) : list_eqb l1 l2 = true <-> l1 = l2.
Proof.
  revert l2; induction l1 as [|x l1 IH]; destruct l2 as [|y l2]; simpl; split; try congruence.
  - intros E. apply andb_prop in E as [E1 E2]. apply eqb_eq in E1. apply IH in E2. congruence.
  - intros E. inversion E; subst. rewrite eqb_refl. apply IH. reflexivity.
Qed.
Lemma list_eqb_refl {A} `{Ord A} (l : list A) : list_eqb l l = true.
Proof. apply list_eqb_eq; reflexivity. Qed.

(** ** Association lists with a boolean key equality ([HashMap]) *)
Section Assoc.
  Context {K V : Type} (keq : K -> K -> bool).
  Fixpoint aget (k : K) (m : list (K * V)) : option V :=
    match m with
    | [] => None
    | (k', v) :: m' => if keq k k' then Some v else aget k m'
    end.
  (** insert, replacing the value of an equal key in place *)
  Fixpoint aset (k : K) (v : V) (m : list (K * V)) : list (K * V) :=
    match m with
    | [] => [(k, v)]
    | (k', v') :: m' => if keq k k' then (k', v) :: m' else (k', v') :: aset k v m'
    end.
  (** entry(k).or_insert(d) then modify by [f] *)
  Fixpoint aupd (k : K) (d : V) (f : V -> V) (m : list (K * V)) : list (K * V) :=
    match m with
    | [] => [(k, f d)]
    | (k', v') :: m' => if keq k k' then (k', f v') :: m' else (k', v') :: aupd k d f m'
    end.
End Assoc.

Section AssocFacts.
  Context {K V : Type} (keq : K -> K -> bool) (keq_eq : forall a b, keq a b = true <-> a = b).

  Lemma keq_refl k : keq k k = true. Proof. apply keq_eq; reflexivity. Qed.
  Lemma keq_neq a b : keq a b = false <-> a <> b.
  Proof. rewrite <- keq_eq. destruct (keq a b); split; congruence. Qed.

  Lemma aget_In k (v : V) m : aget keq k m = Some v -> In (k, v) m.
  Proof.
    induction m as [|[k' v'] m IH]; simpl; [discriminate|].
    destruct (keq k k') eqn:E; intros H.
    - apply keq_eq in E. left; congruence.
    - right; auto.
  Qed.
  Lemma aget_None k (m : list (K * V)) : aget keq k m = None <-> ~ In k (map fst m).
  Proof.
    induction m as [|[k' v'] m IH]; simpl; [tauto|].
    destruct (keq k k') eqn:E.
    - apply keq_eq in E. subst. split; [discriminate|tauto].
    - apply keq_neq in E. rewrite IH. intuition.
  Qed.
  Lemma aget_NoDup k (v : V) m : NoDup (map fst m) -> In (k, v) m -> aget keq k m = Some v.
  Proof.
    induction m as [|[k' v'] m IH]; simpl; intros Hn Hin; [tauto|].
    inversion Hn; subst. destruct Hin as [E|Hin].
    - inversion E; subst. rewrite keq_refl. reflexivity.
    - destruct (keq k k') eqn:E; auto. apply keq_eq in E; subst.
      exfalso. apply (in_map fst) in Hin. auto.
  Qed.
  Lemma aget_aset k k0 (v : V) m : aget keq k (aset keq k0 v m) = if keq k k0 then Some v else aget keq k m.
  Proof.
    induction m as [|[k' v'] m IH]; simpl.
    - destruct (keq k k0); reflexivity.
    - destruct (keq k0 k') eqn:E; simpl.
      + apply keq_eq in E; subst. destruct (keq k k'); auto.
      + destruct (keq k k') eqn:E'; [|exact IH].
        destruct (keq k k0) eqn:E''; auto. apply keq_eq in E', E''. subst. apply keq_neq in E. congruence.
  Qed.
  Lemma aget_aupd k k0 d f (m : list (K * V)) :
    aget keq k (aupd keq k0 d f m) =
      if keq k k0 then Some (f (match aget keq k0 m with Some v => v | None => d end)) else aget keq k m.
  Proof.
    induction m as [|[k' v'] m IH]; simpl.
    - destruct (keq k k0); reflexivity.
    - destruct (keq k0 k') eqn:E; simpl.
      + apply keq_eq in E; subst. destruct (keq k k'); auto.
      + destruct (keq k k') eqn:E'; [|exact IH].
        destruct (keq k k0) eqn:E''; auto. apply keq_eq in E', E''. subst. apply keq_neq in E. congruence.
  Qed.
  Lemma aset_keys k (v : V) m x : In x (map fst (aset keq k v m)) <-> x = k \/ In x (map fst m).
  Proof.
    induction m as [|[k' v'] m IH]; simpl; [intuition|].
    destruct (keq k k') eqn:E; simpl.
    - apply keq_eq in E; subst. intuition.
    - rewrite IH. intuition.
  Qed.
  Lemma aset_NoDup k (v : V) m : NoDup (map fst m) -> NoDup (map fst (aset keq k v m)).
  Proof.
    induction m as [|[k' v'] m IH]; simpl; intros Hn.
    - repeat constructor; simpl; tauto.
    - destruct (keq k k') eqn:E; simpl; auto.
      inversion Hn; subst. constructor; auto. rewrite aset_keys. apply keq_neq in E. intuition.
  Qed.
  Lemma aupd_keys k d f (m : list (K * V)) x : In x (map fst (aupd keq k d f m)) <-> x = k \/ In x (map fst m).
  Proof.
    induction m as [|[k' v'] m IH]; simpl; [intuition|].
    destruct (keq k k') eqn:E; simpl.
    - apply keq_eq in E; subst. intuition.
    - rewrite IH. intuition.
  Qed.
  Lemma aupd_NoDup k d f (m : list (K * V)) : NoDup (map fst m) -> NoDup (map fst (aupd keq k d f m)).
  Proof.
    induction m as [|[k' v'] m IH]; simpl; intros Hn.
    - repeat constructor; simpl; tauto.
    - destruct (keq k k') eqn:E; simpl; auto.
      inversion Hn; subst. constructor; auto. rewrite aupd_keys. apply keq_neq in E. intuition.
  Qed.
End AssocFacts.

(** ** Sorted maps ([BTreeMap]): association lists sorted by an ordered key *)
Section BMap.
  Context {K V : Type} `{OK : Ord K}.
  (** [insert]: like Rust's, an equal key keeps the old key and gets the new value *)
  Fixpoint bset (k : K) (v : V) (m : list (K * V)) : list (K * V) :=
    match m with
    | [] => [(k, v)]
    | (k', v') :: m' =>
        match cmp k k' with
        | Lt => (k, v) :: m
        | Eq => (k', v) :: m'
        | Gt => (k', v') :: bset k v m'
        end
    end.
  (** entry(k).or_insert(d) then modify by [f] *)
  Fixpoint bupd (k : K) (d : V) (f : V -> V) (m : list (K * V)) : list (K * V) :=
    match m with
    | [] => [(k, f d)]
    | (k', v') :: m' =>
        match cmp k k' with
        | Lt => (k, f d) :: m
        | Eq => (k', f v') :: m'
        | Gt => (k', v') :: bupd k d f m'
        end
    end.
  Definition bsorted (m : list (K * V)) : Prop := StronglySorted (fun a b => lt (fst a) (fst b)) m.

  Lemma bupd_keys k d f (m : list (K * V)) x : In x (map fst (bupd k d f m)) <-> x = k \/ In x (map fst m).
  Proof.
    induction m as [|[k' v'] m IH]; simpl; [intuition|].
    destruct (cmp k k') eqn:E; simpl.
    - apply cmp_eq in E; subst. intuition.
    - intuition.
    - rewrite IH. intuition.
  Qed.
  Lemma bset_keys k (v : V) (m : list (K * V)) x : In x (map fst (bset k v m)) <-> x = k \/ In x (map fst m).
  Proof.
    induction m as [|[k' v'] m IH]; simpl; [intuition|].
    destruct (cmp k k') eqn:E; simpl.
    - apply cmp_eq in E; subst. intuition.
    - intuition.
    - rewrite IH. intuition.
  Qed.
  Lemma Forall_keys (P : K -> Prop) (m : list (K * V)) :
    Forall (fun a => P (fst a)) m <-> (forall k, In k (map fst m) -> P k).
  Proof.
    rewrite Forall_forall. split.
    - intros H k Hk. apply in_map_iff in Hk as ([k' v] & <- & Hin). apply (H _ Hin).
    - intros H [k v] Hin. apply H. apply (in_map fst) in Hin. exact Hin.
  Qed.
  Lemma bsorted_bupd k d f (m : list (K * V)) : bsorted m -> bsorted (bupd k d f m).
  Proof.
    unfold bsorted. induction m as [|[k' v'] m IH]; simpl; intros Hs.
    - repeat constructor.
    - inversion Hs as [|? ? Hs' Hz]; subst. destruct (cmp k k') eqn:E.
      + constructor; auto.
      + constructor; auto. constructor; auto.
        eapply Forall_impl; [|exact Hz]. intros w Hw. simpl in *. eapply lt_trans; eauto.
      + constructor; auto. apply (proj2 (Forall_keys (lt k') _)). intros x Hx.
        apply bupd_keys in Hx as [->|Hx]; [apply cmp_gt_lt; exact E|].
        apply (proj1 (Forall_keys (lt k') _) Hz). exact Hx.
  Qed.
  Lemma bsorted_bset k (v : V) (m : list (K * V)) : bsorted m -> bsorted (bset k v m).
  Proof.
    unfold bsorted. induction m as [|[k' v'] m IH]; simpl; intros Hs.
    - repeat constructor.
    - inversion Hs as [|? ? Hs' Hz]; subst. destruct (cmp k k') eqn:E.
      + constructor; auto.
      + constructor; auto. constructor; auto.
        eapply Forall_impl; [|exact Hz]. intros w Hw. simpl in *. eapply lt_trans; eauto.
      + constructor; auto. apply (proj2 (Forall_keys (lt k') _)). intros x Hx.
        apply bset_keys in Hx as [->|Hx]; [apply cmp_gt_lt; exact E|].
        apply (proj1 (Forall_keys (lt k') _) Hz). exact Hx.
  Qed.
  Lemma bsorted_NoDup (m : list (K * V)) : bsorted m -> NoDup (map fst m).
  Proof.
    unfold bsorted. induction 1 as [|[k v] m Hs IH Hx]; simpl; constructor; auto.
    intros Hin. apply (lt_irrefl k). apply (proj1 (Forall_keys (lt k) _) Hx). exact Hin.
  Qed.
  Lemma aget_bupd k k0 d f (m : list (K * V)) : bsorted m ->
    aget eqb k (bupd k0 d f m) =
      if eqb k k0 then Some (f (match aget eqb k0 m with Some v => v | None => d end)) else aget eqb k m.
  Proof.
    unfold bsorted. induction m as [|[k' v'] m IH]; simpl; intros Hs.
    - destruct (eqb k k0); reflexivity.
    - inversion Hs as [|? ? Hs' Hz]; subst.
      assert (Ek : eqb k0 k' = match cmp k0 k' with Eq => true | _ => false end) by reflexivity.
      rewrite Ek. clear Ek. destruct (cmp k0 k') eqn:E; simpl.
      + apply cmp_eq in E; subst. destruct (eqb k k'); auto.
      + destruct (eqb k k0) eqn:E0; auto.
        assert (Hn : aget eqb k0 m = None).
        { apply (aget_None _ (eqb_eq (A:=K))). intros Hin.
          apply (proj1 (Forall_keys (lt k') _)) with (k := k0) in Hz; auto.
          unfold lt in Hz. rewrite cmp_anti, E in Hz. discriminate. }
        rewrite Hn. reflexivity.
      + destruct (eqb k k') eqn:E'; [|apply IH; auto].
        destruct (eqb k k0) eqn:E''; auto. apply eqb_eq in E', E''. subst. rewrite cmp_refl in E. discriminate.
  Qed.
  Lemma aget_bset k k0 (v : V) (m : list (K * V)) : bsorted m ->
    aget eqb k (bset k0 v m) = if eqb k k0 then Some v else aget eqb k m.
  Proof.
    unfold bsorted. induction m as [|[k' v'] m IH]; simpl; intros Hs.
    - destruct (eqb k k0); reflexivity.
    - inversion Hs as [|? ? Hs' Hz]; subst. destruct (cmp k0 k') eqn:E; simpl.
      + apply cmp_eq in E; subst. destruct (eqb k k'); auto.
      + destruct (eqb k k0) eqn:E0; auto.
      + destruct (eqb k k') eqn:E'; [|apply IH; auto].
        destruct (eqb k k0) eqn:E''; auto. apply eqb_eq in E', E''. subst. rewrite cmp_refl in E. discriminate.
  Qed.
End BMap.

(** ** Misc list facts *)
Lemma nth_error_Some_lt {A} (l : list A) i x : nth_error l i = Some x -> i < length l.
Proof. intros H. apply nth_error_Some. congruence. Qed.

Fixpoint index_of {A} (eqA : A -> A -> bool) (x : A) (l : list A) : option nat :=
  match l with
  | [] => None
  | y :: l' => if eqA x y then Some 0 else option_map S (index_of eqA x l')
  end.

Section IndexOf.
  Context {A : Type} (eqA : A -> A -> bool) (eqA_eq : forall a b, eqA a b = true <-> a = b).
  Lemma index_of_Some x l i : index_of eqA x l = Some i -> nth_error l i = Some x.
  Proof.
    revert i; induction l as [|y l IH]; simpl; intros i; [discriminate|].
    destruct (eqA x y) eqn:E.
    - intros H; inversion H; subst. apply eqA_eq in E; subst. reflexivity.
    - destruct (index_of eqA x l); simpl; intros H; inversion H; subst. simpl. auto.
  Qed.
  Lemma index_of_In x l : In x l -> exists i, index_of eqA x l = Some i.
  Proof.
    induction l as [|y l IH]; simpl; [tauto|]. intros Hin. destruct (eqA x y) eqn:E; [eauto|].
    destruct Hin as [->|Hin]; [rewrite (keq_refl eqA eqA_eq) in E; discriminate|].
    destruct (IH Hin) as [i ->]. simpl; eauto.
  Qed.
  Lemma index_of_nth x l i : NoDup l -> nth_error l i = Some x -> index_of eqA x l = Some i.
  Proof.
    revert i; induction l as [|y l IH]; intros i Hn Hi; [destruct i; discriminate|].
    inversion Hn; subst. destruct i; simpl in *.
    - inversion Hi; subst. rewrite (keq_refl eqA eqA_eq). reflexivity.
    - destruct (eqA x y) eqn:E.
      + apply eqA_eq in E; subst. exfalso. apply nth_error_In in Hi. auto.
      + rewrite (IH i); auto.
  Qed.
  Lemma index_of_None x l : index_of eqA x l = None <-> ~ In x l.
  Proof.
    split.
    - intros H Hin. apply index_of_In in Hin as [i Hi]. congruence.
    - intros H. destruct (index_of eqA x l) as [i|] eqn:E; auto.
      apply index_of_Some, nth_error_In in E. tauto.
  Qed.
End IndexOf.

(** replace the [i]-th element *)
Fixpoint upd_nth {A} (i : nat) (f : A -> A) (l : list A) : list A :=
  match l, i with
  | [], _ => []
  | x :: l', 0 => f x :: l'
  | x :: l', S i' => x :: upd_nth i' f l'
  end.
Lemma upd_nth_length {A} i f (l : list A) : length (upd_nth i f l) = length l.
Proof. revert i; induction l as [|x l IH]; destruct i; simpl; auto. Qed.
Lemma nth_error_upd_nth {A} i j f (l : list A) :
  nth_error (upd_nth i f l) j = if Nat.eqb i j then option_map f (nth_error l j) else nth_error l j.
Proof.
  revert i j; induction l as [|x l IH]; intros i j.
  - destruct i, j; simpl; try destruct (Nat.eqb _ _); reflexivity.
  - destruct i, j; simpl; auto.
Qed.

Lemma list_sum_le {A} (l : list A) (f g : A -> nat) : (forall x, In x l -> f x <= g x) ->
  list_sum (map f l) <= list_sum (map g l).
Proof.
  induction l as [|x l IH]; simpl; intros H; auto.
  specialize (H x (or_introl eq_refl)) as H1. assert (list_sum (map f l) <= list_sum (map g l)) by (apply IH; auto). lia.
Qed.

Lemma Forall2_nth {A B} (R : A -> B -> Prop) l1 l2 i a :
  Forall2 R l1 l2 -> nth_error l1 i = Some a -> exists b, nth_error l2 i = Some b /\ R a b.
Proof.
  intros H; revert i; induction H; intros i Hi; destruct i; simpl in *; try discriminate.
  - inversion Hi; subst. eauto.
  - auto.
Qed.
Lemma Forall2_nth_r {A B} (R : A -> B -> Prop) l1 l2 i b :
  Forall2 R l1 l2 -> nth_error l2 i = Some b -> exists a, nth_error l1 i = Some a /\ R a b.
Proof.
  intros H; revert i; induction H; intros i Hi; destruct i; simpl in *; try discriminate.
  - inversion Hi; subst. eauto.
  - auto.
Qed.
Lemma Forall2_In_l {A B} (R : A -> B -> Prop) l1 l2 a :
  Forall2 R l1 l2 -> In a l1 -> exists b, In b l2 /\ R a b.
Proof. induction 1; simpl; intros Hin; [tauto|]. destruct Hin as [->|Hin]; [eauto|]. destruct (IHForall2 Hin) as (b & ? & ?); eauto. Qed.
Lemma Forall2_In_r {A B} (R : A -> B -> Prop) l1 l2 b :
  Forall2 R l1 l2 -> In b l2 -> exists a, In a l1 /\ R a b.
Proof. induction 1; simpl; intros Hin; [tauto|]. destruct Hin as [->|Hin]; [eauto|]. destruct (IHForall2 Hin) as (a & ? & ?); eauto. Qed.
Lemma Forall2_len {A B} (R : A -> B -> Prop) l1 l2 : Forall2 R l1 l2 -> length l1 = length l2.
Proof. induction 1; simpl; congruence. Qed.

(** ** Unbounded loops with fuel *)
Section Loop.
  Context {S R : Type} (step : S -> S + res R).
  (** [while]: [step] either continues with a new state or leaves with a result. *)
  Fixpoint loop (fuel : nat) (s : S) : res R :=
    match fuel with
    | 0 => OutOfFuel
    | Datatypes.S f => match step s with inl s' => loop f s' | inr r => r end
    end.

  Lemma loop_mono fuel fuel' s r : loop fuel s = r -> r <> OutOfFuel -> fuel <= fuel' -> loop fuel' s = r.
  Proof.
    revert fuel' s; induction fuel as [|f IH]; simpl; intros fuel' s H Hr Hle; [congruence|].
    destruct fuel' as [|f']; [lia|]. simpl. destruct (step s); auto. apply IH; auto. lia.
  Qed.

  Lemma loop_det fuel fuel' s : loop fuel s <> OutOfFuel -> loop fuel' s <> OutOfFuel -> loop fuel s = loop fuel' s.
  Proof.
    intros H1 H2. destruct (Nat.le_ge_cases fuel fuel') as [Hle|Hle].
    - symmetry. eapply loop_mono; eauto.
    - eapply loop_mono; eauto.
  Qed.

  (** partial correctness *)
  Lemma loop_inv (I : S -> Prop) (Q : res R -> Prop) :
    (forall s, I s -> match step s with inl s' => I s' | inr r => Q r end) ->
    forall fuel s, I s -> loop fuel s = OutOfFuel \/ Q (loop fuel s).
  Proof.
    intros Hs. induction fuel as [|f IH]; simpl; intros s Hi; auto.
    specialize (Hs s Hi). destruct (step s); auto.
  Qed.

  (** termination *)
  Lemma loop_term (I : S -> Prop) (lt : S -> S -> Prop) (Q : res R -> Prop) :
    well_founded lt ->
    (forall s, I s -> match step s with inl s' => I s' /\ lt s' s | inr r => r <> OutOfFuel /\ Q r end) ->
    forall s, I s -> exists F r, Q r /\ forall fuel, F <= fuel -> loop fuel s = r.
  Proof.
    intros Hwf Hs s. induction s as [s IH] using (well_founded_induction Hwf). intros Hi.
    specialize (Hs s Hi). destruct (step s) as [s'|r] eqn:E.
    - destruct Hs as [Hi' Hlt]. destruct (IH s' Hlt Hi') as (F & r & Hq & Hf).
      exists (Datatypes.S F), r. split; auto. intros fuel Hle. destruct fuel as [|f]; [lia|]. simpl. rewrite E. apply Hf. lia.
    - exists 1, r. split; [tauto|]. intros fuel Hle. destruct fuel as [|f]; [lia|]. simpl. rewrite E. reflexivity.
  Qed.

  (** termination with an explicit bound *)
  Lemma loop_bound (I : S -> Prop) (m : S -> nat) (Q : res R -> Prop) :
    (forall s, I s -> match step s with inl s' => I s' /\ m s' < m s | inr r => Q r end) ->
    forall fuel s, I s -> m s < fuel -> Q (loop fuel s).
  Proof.
    intros Hs. induction fuel as [|f IH]; intros s Hi Hm; [lia|]. simpl.
    specialize (Hs s Hi). destruct (step s); auto. destruct Hs. apply IH; auto. lia.
  Qed.
End Loop.

(** lexicographic descent on two natural numbers *)
Lemma lex_wf {S} (f g : S -> nat) : well_founded (fun s' s => f s' < f s \/ (f s' = f s /\ g s' < g s)).
Proof.
  assert (H : forall a b s, f s = a -> g s = b -> Acc (fun s' s => f s' < f s \/ (f s' = f s /\ g s' < g s)) s).
  { intros a. induction a as [a IHa] using (well_founded_induction lt_wf).
    intros b. induction b as [b IHb] using (well_founded_induction lt_wf).
    intros s Ha Hb. constructor. intros s' [Hlt|[He Hlt]].
    - eapply IHa; eauto. lia.
    - eapply IHb; eauto; lia. }
  intros s. eapply H; eauto.
Qed.
