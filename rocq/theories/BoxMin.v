(** The boxes of the minimised TokenizerDFA (for C85). *)
From Coq Require Import Permutation.
From Verif Require Import Lib Hir NfaPath NfaModel NfaProofs MemModel MemProofs DfaModel DfaEdges DfaTop MinModel MinProofs MinTop TokMore PlaceSpec PlaceProofs PlaceTop BoxModel BoxSpec BoxNfa BoxDfa.

(** *** Permutations can be decided *)
Section PermDec.
  Context {A : Type} (dec : forall a b : A, {a = b} + {a <> b}).
  Fixpoint take_out (a : A) (l : list A) : option (list A) :=
    match l with [] => None | x :: l' => if dec a x then Some l' else option_map (cons x) (take_out a l') end.
  Lemma take_out_perm a l l' : take_out a l = Some l' -> Permutation l (a :: l').
  Proof.
    revert l'. induction l as [|x l IH]; simpl; intros l' E; [discriminate|]. destruct (dec a x) as [->|]; [injection E as ->; apply Permutation_refl|]. destruct (take_out a l) as [l2|]; [|discriminate]. injection E as <-.
    eapply Permutation_trans; [apply perm_skip, IH; reflexivity|]. apply perm_swap.
  Qed.
  Lemma take_out_none a l : take_out a l = None -> ~ In a l.
  Proof. induction l as [|x l IH]; simpl; auto. destruct (dec a x); [discriminate|]. destruct (take_out a l); [discriminate|]. intros _ [C|C]; [congruence|]. apply IH; auto. Qed.
  Lemma perm_dec : forall l l' : list A, {Permutation l l'} + {~ Permutation l l'}.
  Proof.
    induction l as [|a l IH]; intros l'.
    - destruct l' as [|b l']; [left; constructor|right; intros C; apply Permutation_nil in C; discriminate].
    - destruct (take_out a l') as [l2|] eqn:E.
      + apply take_out_perm in E. destruct (IH l2) as [P|P]; [left; eapply Permutation_trans; [apply perm_skip, P|apply Permutation_sym, E]|].
        right. intros C. apply P, (Permutation_cons_inv (a := a)). eapply Permutation_trans; eauto.
      + right. intros C. apply (take_out_none _ _ E), (Permutation_in _ C). left. auto.
  Qed.
  Definition or_same (l0 l : list A) : list A := if perm_dec l0 l then l0 else l.
  Lemma or_same_perm l0 l : Permutation (or_same l0 l) l. Proof. unfold or_same. destruct (perm_dec l0 l); auto. Qed.
  Lemma or_same_id l0 l : Permutation l0 l -> or_same l0 l = l0. Proof. unfold or_same. destruct (perm_dec l0 l); tauto. Qed.
End PermDec.

(** *** Sets of addresses per group *)
Definition in_group (k : nat) (l : list (nat * nat)) : list nat := to_set (map fst (filter (fun x => Nat.eqb (snd x) k) l)).
Lemma In_in_group k l a : In a (in_group k l) <-> In (a, k) l.
Proof.
  unfold in_group. rewrite In_to_set, in_map_iff. split.
  - intros ([b k'] & <- & Hi). apply filter_In in Hi as [Hi E]. apply Nat.eqb_eq in E. simpl in E. subst. auto.
  - intros Hi. exists (a, k). split; auto. apply filter_In. split; auto. apply Nat.eqb_refl.
Qed.
Definition group_count (l : list (nat * nat)) : nat := list_max (map (fun x => S (snd x)) l).
Lemma list_max_app l l' : list_max (l ++ l') = max (list_max l) (list_max l').
Proof. induction l as [|x l IH]; simpl; auto. rewrite IH. lia. Qed.
Lemma nth_map_seq {A} (g : nat -> A) n k : nth_error (map g (seq 0 n)) k = if Nat.ltb k n then Some (g k) else None.
Proof.
  rewrite nth_error_map. destruct (Nat.ltb_spec k n) as [H|H].
  - rewrite (nth_error_nth' _ 0) by (rewrite seq_length; lia). rewrite seq_nth by lia. reflexivity.
  - rewrite (proj2 (nth_error_None _ _)) by (rewrite seq_length; lia). reflexivity.
Qed.
Lemma nth_ext' {A} (l l' : list A) : (forall k, nth_error l k = nth_error l' k) -> l = l'.
Proof.
  revert l'. induction l as [|a l IH]; intros [|b l'] H; auto; [specialize (H 0); discriminate|specialize (H 0); discriminate|]. f_equal; [specialize (H 0); simpl in H; congruence|]. apply IH. intros k. apply (H (S k)).
Qed.
Lemma nth_repeat' {A} (a : A) n k : nth_error (repeat a n) k = if Nat.ltb k n then Some a else None.
Proof. revert k. induction n as [|n IH]; intros [|k]; simpl; auto. rewrite IH. reflexivity. Qed.
Lemma x_sets_spec l : x_sets l = map (fun k => in_group k l) (seq 0 (group_count l)).
Proof.
  induction l as [|x l IH] using rev_ind; [reflexivity|]. unfold x_sets in *. rewrite fold_left_app. cbn [fold_left]. rewrite IH. clear IH. apply nth_ext'. intros k. unfold put_group. rewrite nth_error_upd_nth, nth_map_seq. set (G := map (fun k => in_group k l) (seq 0 (group_count l))).
  assert (HG : length G = group_count l) by (unfold G; rewrite map_length, seq_length; auto).
  assert (Hc : group_count (l ++ [x]) = max (group_count l) (S (snd x))) by (unfold group_count; rewrite map_app, list_max_app; simpl; lia). rewrite Hc.
  assert (E : nth_error (G ++ repeat [] (S (snd x) - length G)) k = if Nat.ltb k (max (group_count l) (S (snd x))) then Some (in_group k l) else None).
  { destruct (Nat.lt_ge_cases k (group_count l)) as [Hk|Hk].
    - rewrite nth_error_app1 by lia. unfold G. rewrite nth_map_seq. rewrite !(proj2 (Nat.ltb_lt _ _)) by lia. reflexivity.
    - rewrite nth_error_app2 by lia. rewrite nth_repeat', HG. destruct (Nat.ltb_spec (k - group_count l) (S (snd x) - group_count l)); destruct (Nat.ltb_spec k (max (group_count l) (S (snd x)))); try lia; auto.
      f_equal. symmetry. destruct (in_group k l) as [|a s] eqn:Eg; auto. exfalso. assert (Ha : In (a, k) l) by (apply In_in_group; rewrite Eg; left; auto). assert (S k <= group_count l); [|lia].
      clear - Ha. unfold group_count. induction l as [|y l IHl]; [destruct Ha|]. cbn [map]. change (list_max (S (snd y) :: map (fun x => S (snd x)) l)) with (max (S (snd y)) (list_max (map (fun x => S (snd x)) l))). destruct Ha as [->|Ha]; [cbn [snd]; lia|]. specialize (IHl Ha). lia. }
  rewrite E. assert (Hi : in_group k (l ++ [x]) = if Nat.eqb (snd x) k then ins (fst x) (in_group k l) else in_group k l).
  { apply sorted_ext; [apply sorted_to_set|destruct (Nat.eqb (snd x) k); [apply sorted_ins|]; apply sorted_to_set|]. intros a. rewrite In_in_group, in_app_iff. destruct (Nat.eqb_spec (snd x) k) as [Ek|Nk].
    - rewrite In_ins, In_in_group. split; [intros [Ha|[Ha|[]]]; [auto|subst x; auto]|intros [->|Ha]; auto]. right. left. destruct x; simpl in *; congruence.
    - rewrite In_in_group. split; [intros [Ha|[Ha|[]]]; auto; subst x; simpl in Nk; congruence|auto]. }
  rewrite Hi. destruct (Nat.eqb (snd x) k); destruct (Nat.ltb k (max (group_count l) (S (snd x)))); reflexivity.
Qed.
Lemma group_count_perm l l' : Permutation l l' -> group_count l = group_count l'.
Proof.
  assert (C : forall x l, group_count (x :: l) = max (S (snd x)) (group_count l)) by reflexivity.
  induction 1 as [|x l l' P IH|x y l|l1 l2 l3 P1 IH1 P2 IH2]; auto; rewrite ?C; lia.
Qed.
Lemma x_sets_perm l l' : Permutation l l' -> x_sets l = x_sets l'.
Proof.
  intros H. rewrite !x_sets_spec, (group_count_perm _ _ H). apply map_ext. intros k. apply sorted_ext; try apply sorted_to_set. intros a. rewrite !In_in_group. split; apply Permutation_in; auto. apply Permutation_sym; auto.
Qed.

(** *** Positions for addresses *)
Definition inv (vec : list nat) (a : nat) : nat := match pos_of vec a with Some i => i | None => 0 end.
Section Inv.
  Variable vec : list nat.
  Hypothesis Hd : NoDup vec.
  Let f := placef vec.
  Lemma inv_f i : i < length vec -> inv vec (f i) = i.
  Proof.
    intros Hi. unfold inv. destruct (pos_of vec (f i)) as [j|] eqn:E.
    - apply (index_of_Some _ Nat.eqb_eq) in E. apply (proj1 (NoDup_nth_error vec) Hd); [apply nth_error_Some; congruence|]. rewrite E. unfold f. symmetry. apply placef_nth. auto.
    - exfalso. apply (index_of_None _ Nat.eqb_eq) in E. apply E, placef_In. auto.
  Qed.
  Lemma f_inv a : In a vec -> f (inv vec a) = a.
  Proof. intros Ha. destruct (placef_of _ _ Ha) as (i & Hi & ->). rewrite inv_f by auto. reflexivity. Qed.
  Lemma inv_lt a : In a vec -> inv vec a < length vec.
  Proof. intros Ha. destruct (placef_of _ _ Ha) as (i & Hi & ->). rewrite inv_f by auto. auto. Qed.
  Lemma map_inv_f l : (forall i, In i l -> i < length vec) -> map (inv vec) (map f l) = l.
  Proof. intros Hl. rewrite map_map. rewrite <- (map_id l) at 2. apply map_ext_in. intros i Hi. apply inv_f. auto. Qed.
  Lemma map_f_inv l : (forall a, In a l -> In a vec) -> map f (map (inv vec) l) = l.
  Proof. intros Hl. rewrite map_map. rewrite <- (map_id l) at 2. apply map_ext_in. intros i Hi. apply f_inv. auto. Qed.
  Lemma ren_in s : (forall i, In i s -> i < length vec) -> forall a, In a (ren f s) -> In a vec.
  Proof. intros Hs a Ha. apply In_ren in Ha as (x & -> & Hx). apply placef_In. auto. Qed.
  Lemma inv_ren s : sorted s -> (forall i, In i s -> i < length vec) -> Permutation (map (inv vec) (ren f s)) s.
  Proof. intros A B. eapply Permutation_trans; [apply Permutation_map, (perm_ren f (placef_inj vec Hd) s A)|]. rewrite map_inv_f by auto. apply Permutation_refl. Qed.
  Lemma set_inv_ren s : sorted s -> (forall i, In i s -> i < length vec) -> to_set (map (inv vec) (ren f s)) = s.
  Proof. intros A B. apply sorted_ext; auto; [apply sorted_to_set|]. intros x. rewrite In_to_set. split; apply Permutation_in; [|apply Permutation_sym]; apply inv_ren; auto. Qed.
  Lemma perm_fits l l' : Permutation l' (ren f l) -> sorted l -> (forall i, In i l -> i < length vec) -> map f (or_same Nat.eq_dec (map (inv vec) l') l) = l'.
  Proof.
    intros P A B. rewrite or_same_id.
    - apply map_f_inv. intros a Ha. apply (ren_in l B). apply (Permutation_in _ P). auto.
    - eapply Permutation_trans; [apply Permutation_map, P|]. apply inv_ren; auto.
  Qed.

  (** the tables seen by positions *)
  Definition renK (sp : list (list (crange * nat) * list nat)) := map (fun x => (fst x, ren f (snd x))) sp.
  Lemma kdec (a b : list (crange * nat) * list nat) : {a = b} + {a <> b}.
  Proof. decide equality; apply list_eq_dec; [apply Nat.eq_dec|]. decide equality; [apply Nat.eq_dec|]. decide equality; apply N.eq_dec. Qed.
  Definition pos_oracle (bo : hash_oracle) : hash_oracle := {|
    o_set := fun it gi l => or_same Nat.eq_dec (map (inv vec) (o_set bo it gi (ren f l))) l;
    o_split := fun it gi sp => or_same kdec (map (fun x => (fst x, to_set (map (inv vec) (snd x)))) (o_split bo it gi (renK sp))) sp;
    o_probe := fun it n => o_probe bo it (f n);
    o_rep := fun i l => or_same Nat.eq_dec (map (inv vec) (o_rep bo i (ren f l))) l |}.
  Lemma pos_oracle_ok bo : oracle_ok bo -> oracle_ok (pos_oracle bo).
  Proof. intros Ho. split; simpl; intros; try apply or_same_perm. apply (oo_probe _ Ho). Qed.
  Lemma pos_honest bo : honest bo -> honest (pos_oracle bo).
  Proof. intros Hh it n k k' A B. exact (Hh it (f n) k k' A B). Qed.
  Variable bo : hash_oracle.
  Hypothesis Ho : oracle_ok bo.
  Definition ins_ok (s : list nat) : Prop := sorted s /\ forall i, In i s -> i < length vec.
  Lemma set_f it gi s : ins_ok s -> o_set bo it gi (ren f s) = map f (o_set (pos_oracle bo) it gi s).
  Proof. intros [A B]. simpl. symmetry. apply perm_fits; auto. apply (oo_set _ Ho). Qed.
  Lemma rep_f i s : ins_ok s -> o_rep bo i (ren f s) = map f (o_rep (pos_oracle bo) i s).
  Proof. intros [A B]. simpl. symmetry. apply perm_fits; auto. apply (oo_rep _ Ho). Qed.
  Definition sp_fine (sp : list (list (crange * nat) * list nat)) : Prop := Forall (fun x => ins_ok (snd x)) sp.
  Lemma split_f it gi sp : sp_fine sp -> o_split bo it gi (renK sp) = renK (o_split (pos_oracle bo) it gi sp).
  Proof.
    intros Hs. simpl. pose proof (oo_split _ Ho it gi (renK sp)) as P. assert (Hb : forall sp, sp_fine sp -> map (fun x : list (crange * nat) * list nat => (fst x, to_set (map (inv vec) (snd x)))) (renK sp) = sp).
    { intros l Hl. unfold renK. rewrite map_map. rewrite <- (map_id l) at 2. apply map_ext_in. intros [k s] Hi. cbn [fst snd]. unfold sp_fine in Hl. rewrite Forall_forall in Hl. destruct (Hl _ Hi) as [A B]. simpl in A, B. rewrite set_inv_ren by auto. reflexivity. }
    destruct (Permutation_map_inv _ _ P) as (sp2 & E & P2). fold (renK sp2) in E. rewrite E. assert (H2 : sp_fine sp2) by (unfold sp_fine in *; rewrite Forall_forall in *; intros x Hx; apply Hs, (Permutation_in _ (Permutation_sym P2)); auto). rewrite (Hb sp2 H2). rewrite or_same_id; auto. apply Permutation_sym. auto.
  Qed.
End Inv.

Lemma sorted_filter_nat p (l : list nat) : sorted l -> sorted (filter p l).
Proof. induction 1 as [|x l Hs IH Hx]; simpl; [constructor|]. destruct (p x); auto. constructor; auto. rewrite Forall_forall in *. intros y Hy. apply filter_In in Hy as [Hy _]. auto. Qed.
Lemma sorted_seq_nat n : forall a, sorted (seq a n).
Proof. induction n as [|n IH]; intros a; simpl; constructor; auto; [apply IH|]. apply Forall_forall. intros x Hx. apply in_seq in Hx. apply Nat.compare_lt_iff. lia. Qed.
Lemma nth_combine {A B} (l : list A) (l' : list B) i : nth_error (combine l l') i = match nth_error l i, nth_error l' i with Some a, Some b => Some (a, b) | _, _ => None end.
Proof. revert l' i. induction l as [|a l IH]; intros [|b l'] [|i]; simpl; auto. destruct (nth_error l i); auto. Qed.
Lemma map_fst_combine {A B} (l : list A) (l' : list B) : length l' = length l -> map fst (combine l l') = l.
Proof. revert l'. induction l as [|a l IH]; intros [|b l'] E; simpl in *; auto; try discriminate. rewrite IH by lia. reflexivity. Qed.
Lemma map_snd_combine {A B} (l : list A) (l' : list B) : length l' = length l -> map snd (combine l l') = l'.
Proof. revert l'. induction l as [|a l IH]; intros [|b l'] E; simpl in *; auto; try discriminate. rewrite IH by lia. reflexivity. Qed.
Lemma upds_nth {A} (v : A) s : forall l i, nth_error (fold_left (fun new n => upd_nth n (fun _ => v) new) s l) i = if mem i s then option_map (fun _ => v) (nth_error l i) else nth_error l i.
Proof.
  induction s as [|n s IH]; intros l i; [reflexivity|]. cbn [fold_left]. rewrite IH, nth_error_upd_nth. unfold mem. cbn [existsb]. change (existsb (eqb i) s) with (mem i s). assert (E : eqb i n = Nat.eqb n i) by (destruct (Nat.eqb_spec n i) as [->|N0]; [apply eqb_refl|apply eqb_neq; congruence]). rewrite E. destruct (mem i s); destruct (Nat.eqb n i); simpl; auto; destruct (nth_error l i); auto.
Qed.

Section Groups.
  Variable vec : list nat.
  Hypothesis Hd : NoDup vec.
  Let f := placef vec.
  Lemma aget_combine (g : list nat) i : length g = length vec -> i < length vec -> aget Nat.eqb (f i) (combine vec g) = nth_error g i.
  Proof.
    intros Hg Hi. destruct (nth_error g i) as [k|] eqn:E; [|apply nth_error_None in E; lia]. apply (aget_NoDup Nat.eqb Nat.eqb_eq); [rewrite map_fst_combine by auto; auto|]. apply (nth_error_In _ i). rewrite nth_combine, E. unfold f. rewrite placef_nth by auto. reflexivity.
  Qed.
  Lemma aset_combine (v : nat) i : i < length vec -> forall g, length g = length vec -> aset Nat.eqb (f i) v (combine vec g) = combine vec (upd_nth i (fun _ => v) g).
  Proof.
    intros Hi. pose proof (placef_nth vec i Hi) as E. fold f in E. revert E. generalize (f i) as a. clear Hi. revert i Hd. induction vec as [|x l IH]; intros i Hn a E g Hg; [destruct i; discriminate|]. destruct g as [|y g]; [discriminate|]. simpl in Hg. inversion Hn as [|? ? Hx Hn']; subst. destruct i as [|i]; simpl in E |- *.
    - injection E as ->. rewrite Nat.eqb_refl. reflexivity.
    - destruct (Nat.eqb_spec a x) as [E1|_]; [exfalso; apply Hx; rewrite <- E1; eapply nth_error_In; eauto|]. f_equal. apply IH; auto.
  Qed.
  Lemma asets_combine (v : nat) s : (forall i, In i s -> i < length vec) -> forall g, length g = length vec -> fold_left (fun new a => aset Nat.eqb a v new) (map f s) (combine vec g) = combine vec (fold_left (fun new n => upd_nth n (fun _ => v) new) s g).
  Proof.
    induction s as [|i s IH]; intros Hs g Hg; cbn [map fold_left]; auto. rewrite aset_combine by (auto; apply Hs; left; auto). apply IH; [intros; apply Hs; right; auto|]. rewrite upd_nth_length. auto.
  Qed.
  Lemma label_ren (v : nat) s g : ins_ok vec s -> length g = length vec -> fold_left (fun new a => aset Nat.eqb a v new) (ren f s) (combine vec g) = combine vec (fold_left (fun new n => upd_nth n (fun _ => v) new) s g).
  Proof.
    intros [A B] Hg. rewrite <- (map_f_inv vec Hd (ren f s)) by (apply ren_in; auto). fold f. pose proof (inv_ren vec Hd s A B) as P. fold f in P. rewrite asets_combine; auto.
    - f_equal. apply nth_ext'. intros i. rewrite !upds_nth. replace (mem i (map (inv vec) (ren f s))) with (mem i s); auto. apply Bool.eq_iff_eq_true. rewrite !mem_In. split; apply Permutation_in; auto. apply Permutation_sym. auto.
    - intros i Hi. apply B. apply (Permutation_in _ P). auto.
  Qed.
  Lemma sets_ren g l : length g = length vec -> Permutation l (combine vec g) -> x_sets l = map (ren f) (group_sets g).
  Proof.
    intros Hg P. rewrite (x_sets_perm _ _ P), x_sets_spec. assert (Hc : group_count (combine vec g) = length (group_sets g)).
    { unfold group_count. rewrite <- (map_map snd S), map_snd_combine by auto. unfold group_sets. destruct g as [|x g]; [reflexivity|]. rewrite map_length, seq_length. generalize (x :: g) as l0, (fun E : x :: g = [] => ltac:(discriminate E) : False). clear. intros l0 Hne. destruct l0 as [|x g]; [exfalso; apply Hne; reflexivity|]. clear Hne. revert x. induction g as [|y g IH]; intros x; [simpl; lia|].
      change (list_max (map S (x :: y :: g))) with (max (S x) (list_max (map S (y :: g)))). rewrite IH. change (list_max (x :: y :: g)) with (max x (list_max (y :: g))). lia. }
    rewrite Hc. apply nth_ext'. intros k. rewrite nth_map_seq, nth_error_map. destruct (Nat.ltb_spec k (length (group_sets g))) as [Hk|Hk]; [|rewrite (proj2 (nth_error_None _ _)) by auto; reflexivity].
    apply nth_error_Some in Hk. destruct (nth_error (group_sets g) k) as [s|] eqn:Es; [|congruence]. simpl. f_equal. apply sorted_ext; [apply sorted_to_set|apply ren_sorted|]. intros a. rewrite In_in_group, In_ren. pose proof (In_group_sets g k s Es) as HI. split.
    - intros Ha. apply In_nth_error in Ha as [i Ei]. rewrite nth_combine in Ei. destruct (nth_error vec i) as [a0|] eqn:E1; [|discriminate]. destruct (nth_error g i) as [k0|] eqn:E2; [|discriminate]. injection Ei as -> ->. assert (Hi : i < length vec) by (apply nth_error_Some; congruence). exists i. split; [unfold f; rewrite (placef_nth _ _ Hi) in E1; congruence|]. apply HI. split; [lia|]. rewrite nth_gval in E2 by lia. congruence.
    - intros (i & -> & Hi). apply HI in Hi as [Hi Ev]. apply (nth_error_In _ i). rewrite nth_combine. unfold f. rewrite placef_nth by lia. rewrite nth_gval by auto. congruence.
  Qed.
  Lemma group_sets_ok g s : length g = length vec -> In s (group_sets g) -> ins_ok vec s.
  Proof.
    intros Hg Hi. apply In_nth_error in Hi as [k Ek]. split; [|intros i Hi; apply (In_group_sets g k s Ek) in Hi; lia]. unfold group_sets in Ek. destruct g as [|x g]; [destruct k; discriminate|]. apply nth_error_In, in_map_iff in Ek as (k0 & <- & _). apply sorted_filter_nat, sorted_seq_nat.
  Qed.
  Lemma compress_ren g nd : length g = length vec -> (forall r j, In (r, j) nd -> j < length vec) -> compress_at (combine vec g) (imgd vec nd) = compress g nd.
  Proof.
    intros Hg Hn. unfold compress_at, compress. f_equal. generalize (mk_cstate None None None []) as st. unfold imgd. induction nd as [|[r j] nd IH]; intros st; cbn [map foldM]; auto. cbn [fst snd].
    assert (E : compress_step_at (combine vec g) st (r, placef vec j) = compress_step g st (r, j)) by (unfold compress_step_at, compress_step; fold f; rewrite aget_combine by (auto; eapply Hn; left; reflexivity); reflexivity).
    rewrite E. destruct (compress_step g st (r, j)); cbn [bind]; auto. apply IH. intros; eapply Hn; right; eauto.
  Qed.
End Groups.

Section Min.
  Variables (ev : box_env) (Hev : env_fine ev) (d : dfa) (b : bdfa) (m : boxes).
  Hypothesis R : drep d b m.
  Hypothesis Ht : forall i nd r j, nth_error (d_nodes d) i = Some nd -> In (r, j) nd -> j < length (d_nodes d).
  Let vec := bd_vec b.
  Let f := placef vec.
  Let nodes := d_nodes d.
  Let bo := ev_min ev.
  Let o := pos_oracle vec bo.
  Let Hd : NoDup vec := dr_dup _ _ _ R.
  Let HL : length vec = length nodes := dr_len _ _ _ R.

  Lemma split_one_ok it g sp n sp2 : length g = length vec -> n < length vec -> sp_fine vec sp -> split_one o it nodes g sp n = Ok sp2 ->
    x_split_one ev it (combine vec g) (renK vec sp) (f n) m = XOk (renK vec sp2) m /\ sp_fine vec sp2.
  Proof.
    intros Hg Hn Hs E. unfold split_one in E. destruct (nth_error nodes n) as [nd|] eqn:En; cbn [of_opt bind] in E; [|discriminate]. destruct (compress g nd) as [k| |] eqn:Ek; cbn [bind] in E; try discriminate. injection E as <-.
    unfold x_split_one, read_d, xbind. pose proof (dr_cell _ _ _ R n nd En) as C. fold vec f in C. rewrite C. unfold xpure. rewrite (compress_ren vec Hd) by (auto; intros r j Hj; rewrite HL; eapply Ht; eauto). rewrite Ek. unfold xret. set (P0 := o_probe o it n). change (o_probe (ev_min ev) it (f n)) with P0. change (o_probe (ev_min ev) it (placef vec n)) with P0. change (o_probe bo it (placef vec n)) with P0. unfold P0. clear P0. generalize (o_probe o it n) as P. intros P.
    assert (Hi : forall s, ins_ok vec s -> ins_ok vec (ins n s)) by (intros s [A B]; split; [apply sorted_ins; auto|]; intros i Hi; apply In_ins in Hi as [->|Hi]; auto).
    assert (Hr : forall s, ins (f n) (ren f s) = ren f (ins n s)). { intros s. apply sorted_ext; [apply sorted_ins, ren_sorted|apply ren_sorted|]. intros a. rewrite In_ins, !In_ren. split; [intros [->|(x & E & Hx)]; [exists n; split; auto; apply In_ins; auto|exists x; split; auto; apply In_ins; auto]|intros (x & -> & Hx); apply In_ins in Hx as [->|Hx]; [left; auto|right; eauto]]. }
    clear C En Ek. split.
    - f_equal. induction Hs as [|[k' s] sp Hx Hs IH]; [reflexivity|]. cbn [renK map add_split fst snd]. destruct (P k k' && key_eq k k'); cbn [renK map fst snd]; [fold f; rewrite Hr; reflexivity|]. f_equal. exact IH.
    - induction Hs as [|[k' s] sp Hx Hs IH]; cbn [add_split].
      + constructor; [|constructor]. split; simpl; [repeat constructor|intros i [<-|[]]; auto].
      + destruct (P k k' && key_eq k k'); constructor; auto. apply Hi. auto.
  Qed.
  Lemma split_set_ok it gi g s sp : length g = length vec -> ins_ok vec s -> split_set o it gi nodes g s = Ok sp ->
    x_split_set ev it gi (combine vec g) (ren f s) m = XOk (renK vec sp) m /\ sp_fine vec sp.
  Proof.
    intros Hg Hs E. unfold x_split_set. fold bo. unfold f. rewrite (set_f vec Hd bo (ef_min _ Hev) it gi s Hs). fold o. fold f. unfold split_set in E. change (@nil (list (crange * nat) * list nat)) with (renK vec []) at 1.
    assert (Hb : forall i, In i (o_set o it gi s) -> i < length vec) by (intros i Hi; apply Hs, (Permutation_in _ (oo_set _ (pos_oracle_ok vec bo (ef_min _ Hev)) it gi s)); auto).
    assert (H0 : sp_fine vec []) by constructor. revert E H0. generalize (@nil (list (crange * nat) * list nat)) as sp0. induction (o_set o it gi s) as [|n l IH]; intros sp0 E H0; cbn [map xfold foldM] in *; [injection E as <-; auto|].
    destruct (split_one o it nodes g sp0 n) as [sp1| |] eqn:E1; cbn [bind] in E; try discriminate. destruct (split_one_ok it g sp0 n sp1 Hg (Hb n (or_introl eq_refl)) H0 E1) as [A B]. rewrite (xbind_ok _ _ _ _ _ A). apply IH; auto. intros; apply Hb; right; auto.
  Qed.
  Lemma labels_ok l : sp_fine vec l -> forall new mx, length new = length vec ->
    fold_left x_label (map snd (renK vec l)) (combine vec new, mx) = (combine vec (fst (fold_left label_one (map snd l) (new, mx))), snd (fold_left label_one (map snd l) (new, mx))) /\ length (fst (fold_left label_one (map snd l) (new, mx))) = length vec.
  Proof.
    induction 1 as [|[k s] l Hx Hl IH]; intros new mx Hn; cbn [renK map fold_left snd]; [auto|]. unfold x_label at 2, label_one at 2 4 6. cbn [fst snd]. rewrite (label_ren vec Hd mx s new Hx Hn). apply IH.
    assert (G : forall s (g : list nat), length (fold_left (fun new n => upd_nth n (fun _ => mx) new) s g) = length g) by (induction s0 as [|i s0 IHs]; intros g; simpl; auto; rewrite IHs, upd_nth_length; auto). rewrite G. auto.
  Qed.
  Definition renM (st : list nat * nat * bool) : list (nat * nat) * nat * bool := let '(new, mx, upd) := st in (combine vec new, mx, upd).
  Definition st_len (st : list nat * nat * bool) : Prop := length (fst (fst st)) = length vec.
  Lemma group_step_ok it g st k s st2 : length g = length vec -> st_len st -> ins_ok vec s -> group_step o it nodes g st (k, s) = Ok st2 ->
    x_group_step ev it (combine vec g) (renM st) (k, ren f s) m = XOk (renM st2) m /\ st_len st2.
  Proof.
    intros Hg Hn Hs E. destruct st as [[new mx] upd]. unfold st_len in Hn. cbn [fst] in Hn. unfold group_step in E. cbn [fst snd] in E. destruct (split_set o it k nodes g s) as [sp| |] eqn:Es; cbn [bind] in E; try discriminate.
    destruct (split_set_ok it k g s sp Hg Hs Es) as [A B]. unfold x_group_step, renM at 1. cbn [fst snd]. rewrite (xbind_ok _ _ _ _ _ A). fold bo. unfold o in E. rewrite (split_f vec Hd bo (ef_min _ Hev) it k sp B). fold o in E |- *.
    assert (B2 : sp_fine vec (o_split o it k sp)) by (unfold sp_fine in *; rewrite Forall_forall in *; intros x Hx; apply B, (Permutation_in _ (oo_split _ (pos_oracle_ok vec bo (ef_min _ Hev)) it k sp)); auto).
    destruct (labels_ok _ B2 new mx Hn) as [C D]. rewrite C. destruct (fold_left label_one (map snd (o_split o it k sp)) (new, mx)) as [new2 mx2]. cbn [fst snd] in *. injection E as <-. split; [|exact D]. unfold renK. rewrite map_length. reflexivity.
  Qed.
  Lemma group_steps_ok it g sets : length g = length vec -> (forall s, In s sets -> ins_ok vec s) -> forall n st st2, st_len st -> foldM (group_step o it nodes g) (combine (seq n (length sets)) sets) st = Ok st2 ->
    xfold (x_group_step ev it (combine vec g)) (combine (seq n (length sets)) (map (ren f) sets)) (renM st) m = XOk (renM st2) m /\ st_len st2.
  Proof.
    intros Hg. induction sets as [|s sets IH]; intros Hs n st st2 Hn E; cbn [length seq combine map xfold foldM] in *; [injection E as <-; auto|]. destruct (group_step o it nodes g st (n, s)) as [st1| |] eqn:E1; cbn [bind] in E; try discriminate.
    destruct (group_step_ok it g st n s st1 Hg Hn (Hs s (or_introl eq_refl)) E1) as [A B]. rewrite (xbind_ok _ _ _ _ _ A). apply IH; auto. intros; apply Hs; right; auto.
  Qed.
  Lemma min_loop_sim n : forall it g new g2, length g = length vec -> length new = length vec -> loop (min_step o nodes) n (mk_mstate it g new) = Ok g2 ->
    xwhile (x_min_step ev) n (it, combine vec g, combine vec new) m = XOk (combine vec g2) m /\ length g2 = length vec.
  Proof.
    induction n as [|n IH]; intros it g new g2 Hg Hn E; simpl in E; [discriminate|]. cbn [xwhile]. unfold min_step in E. cbn [ms_it ms_g ms_new] in E.
    destruct (foldM (group_step o it nodes g) (combine (seq 0 (length (group_sets g))) (group_sets g)) (new, 0, false)) as [[[new2 mx2] upd]| |] eqn:E1; try discriminate.
    destruct (group_steps_ok it g (group_sets g) Hg (fun s Hs => group_sets_ok vec g s Hg Hs) 0 (new, 0, false) _ Hn E1) as [A B]. unfold st_len in B. cbn [fst] in B.
    assert (Es : x_min_step ev (it, combine vec g, combine vec new) m = XOk (if upd then inl (S it, combine vec new2, combine vec g) else inr (combine vec new2)) m).
    { unfold x_min_step. rewrite (sets_ren vec g _ Hg (ef_groups _ Hev it (combine vec g))). rewrite map_length. fold f. cbn [renM] in A. rewrite (xbind_ok _ _ _ _ _ A). reflexivity. }
    rewrite (xbind_ok _ _ _ _ _ Es). destruct upd; [apply IH; auto|]. injection E as <-. auto.
  Qed.

  (** the new nodes *)
  Lemma min_node_ok g vec2 count k s nd : length g = length vec -> length vec2 = count -> k < count -> ins_ok vec s -> min_node o nodes g count (k, s) = Ok nd ->
    forall m1, (forall a, In a vec -> aget Nat.eqb a (bx_dfa m1) = aget Nat.eqb a (bx_dfa m)) -> aget Nat.eqb (placef vec2 k) (bx_dfa m1) <> None ->
    x_min_node ev vec2 (combine vec g) (k, ren f s) m1 = XOk tt (mk_boxes (bx_nfa m1) (aset Nat.eqb (placef vec2 k) (imgd vec2 nd) (bx_dfa m1)) (bx_clock m1)) /\ forall r j, In (r, j) nd -> j < count.
  Proof.
    intros Hg H2 Hk Hs E m1 Hm Hc. unfold min_node in E. cbn [fst snd] in E. destruct (hd_error (o_rep o k s)) as [r|] eqn:Er; cbn [of_opt bind] in E; [|discriminate]. destruct (nth_error nodes r) as [nd0|] eqn:En; cbn [of_opt bind] in E; [|discriminate]. destruct (compress g nd0) as [key| |] eqn:Ek; cbn [bind] in E; try discriminate.
    unfold x_min_node. cbn [fst snd]. assert (Er2 : hd_error (o_rep (ev_min ev) k (ren f s)) = Some (f r)) by (fold bo; unfold f; rewrite (rep_f vec Hd bo (ef_min _ Hev) k s Hs); fold o; destruct (o_rep o k s); [discriminate|]; simpl in *; congruence).
    rewrite (xopt_ok _ _ _ _ Er2). assert (Hr : r < length vec) by (rewrite HL; apply nth_error_Some; congruence). pose proof (dr_cell _ _ _ R r nd0 En) as C. fold vec f in C. rewrite <- (Hm (f r)) in C by (apply placef_In; auto).
    rewrite (xbind_ok _ _ m1 (imgd vec nd0) m1) by (unfold read_d; rewrite C; reflexivity). rewrite (xbind_ok _ _ m1 key m1) by (unfold xpure; rewrite (compress_ren vec Hd) by (auto; intros r0 j Hj; rewrite HL; eapply Ht; eauto); rewrite Ek; reflexivity).
    assert (K : nd = key /\ forall r j, In (r, j) key -> j < count). { clear - E. revert nd E. induction key as [|[r j] key IH]; intros nd E; cbn [mapM] in E; [injection E as <-; split; auto; intros ? ? []|]. cbn [snd] in E. destruct (Nat.ltb_spec j count) as [Hj|Hj]; cbn [bind] in E; [|discriminate]. destruct (mapM _ key) as [l| |]; cbn [bind] in E; try discriminate. injection E as <-. destruct (IH _ eq_refl) as [-> K]. split; auto. intros r0 j0 [Ej|Hi]; [injection Ej as <- <-; auto|eauto]. }
    destruct K as [-> K]. assert (X : xmap (fun kv : crange * nat => xdo a <- xopt (nth_error vec2 (snd kv)); xret (fst kv, a)) key m1 = XOk (imgd vec2 key) m1).
    { clear - K H2. induction key as [|[r j] key IH]; [reflexivity|]. cbn [xmap imgd map fst snd]. assert (E1 : (xdo a <- xopt (nth_error vec2 j); xret (r, a)) m1 = XOk (r, placef vec2 j) m1) by (rewrite (xopt_ok _ _ _ _ (placef_nth vec2 j ltac:(rewrite H2; eapply K; left; reflexivity))); reflexivity).
      rewrite (xbind_ok _ _ _ _ _ E1), (xbind_ok _ _ _ _ _ (IH (fun r j Hi => K r j (or_intror Hi)))). reflexivity. }
    rewrite (xbind_ok _ _ _ _ _ X), (xopt_ok _ _ _ _ (placef_nth vec2 k ltac:(lia))). split; [|exact K]. unfold write_d. destruct (aget Nat.eqb (placef vec2 k) (bx_dfa m1)); [reflexivity|congruence].
  Qed.
  Lemma min_nodes_ok g vec2 count sets : length g = length vec -> NoDup vec2 -> length vec2 = count -> (forall a, In a vec -> ~ In a vec2) -> (forall s, In s sets -> ins_ok vec s) -> forall n nodes2 m1, n + length sets <= count ->
    mapM (min_node o nodes g count) (combine (seq n (length sets)) sets) = Ok nodes2 -> (forall a, In a vec -> aget Nat.eqb a (bx_dfa m1) = aget Nat.eqb a (bx_dfa m)) -> (forall a, In a vec2 -> aget Nat.eqb a (bx_dfa m1) <> None) ->
    exists m2, xiter (x_min_node ev vec2 (combine vec g)) (combine (seq n (length sets)) (map (ren f) sets)) m1 = XOk tt m2 /\ bx_nfa m2 = bx_nfa m1 /\ length nodes2 = length sets /\
      (forall i nd, nth_error nodes2 i = Some nd -> aget Nat.eqb (placef vec2 (n + i)) (bx_dfa m2) = Some (imgd vec2 nd)) /\
      (forall a, (forall i, n <= i < n + length sets -> a <> placef vec2 i) -> aget Nat.eqb a (bx_dfa m2) = aget Nat.eqb a (bx_dfa m1)).
  Proof.
    intros Hg Hn2 H2 Hdis. pose proof (placef_inj vec2 Hn2) as inj2. induction sets as [|s sets IH]; intros Hs n nodes2 m1 Hc E Hm Hv; cbn [length seq combine map mapM] in *.
    - injection E as <-. exists m1. split; [reflexivity|]. split; auto. split; auto. split; [intros [|i]; discriminate|auto].
    - destruct (min_node o nodes g count (n, s)) as [nd| |] eqn:E1; cbn [bind] in E; try discriminate. destruct (mapM (min_node o nodes g count) (combine (seq (S n) (length sets)) sets)) as [nds| |] eqn:E2; cbn [bind] in E; try discriminate. injection E as <-.
      assert (Hin : In (placef vec2 n) vec2) by (apply placef_In; lia).
      destruct (min_node_ok g vec2 count n s nd Hg H2 ltac:(lia) (Hs s (or_introl eq_refl)) E1 m1 Hm (Hv _ Hin)) as [A _].
      set (m1' := mk_boxes (bx_nfa m1) (aset Nat.eqb (placef vec2 n) (imgd vec2 nd) (bx_dfa m1)) (bx_clock m1)) in *.
      assert (G : forall a, aget Nat.eqb a (bx_dfa m1') = if Nat.eqb a (placef vec2 n) then Some (imgd vec2 nd) else aget Nat.eqb a (bx_dfa m1)) by (intros a; unfold m1'; cbn [bx_dfa]; apply aget_aset, Nat.eqb_eq).
      destruct (IH (fun s Hi => Hs s (or_intror Hi)) (S n) nds m1' ltac:(lia) E2) as (m2 & B1 & B2 & B3 & B4 & B5).
      { intros a Ha. rewrite G. destruct (Nat.eqb_spec a (placef vec2 n)) as [Ea|_]; [exfalso; apply (Hdis a Ha); rewrite Ea; auto|auto]. }
      { intros a Ha. rewrite G. destruct (Nat.eqb a (placef vec2 n)); [discriminate|auto]. }
      exists m2. unfold xiter in *. cbn [xmap]. assert (K : exists us, xmap (x_min_node ev vec2 (combine vec g)) (combine (seq (S n) (length sets)) (map (ren f) sets)) m1' = XOk us m2) by (apply xbind_inv in B1 as (us & m3 & X1 & X2); exists us; unfold xret in X2; congruence). destruct K as [us K].
      split; [unfold xbind; rewrite A, K; reflexivity|]. split; [rewrite B2; reflexivity|]. split; [simpl; lia|]. split.
      + intros [|i] nd' Ei; simpl in Ei.
        * injection Ei as <-. rewrite Nat.add_0_r, B5, G, Nat.eqb_refl; auto. intros i Hi C. apply inj2 in C. lia.
        * replace (n + S i) with (S n + i) by lia. apply B4. auto.
      + intros a Ha. rewrite B5 by (intros i Hi; apply Ha; lia). rewrite G. destruct (Nat.eqb_spec a (placef vec2 n)) as [Ea|_]; auto. exfalso. apply (Ha n); auto. lia.
  Qed.

  Hypothesis Hb : d_begin d < length nodes.
  Hypothesis Hk : forall i p, In (i, p) (d_end d) -> i < length nodes.
  Theorem x_minify_ok d2 : minify o d = Ok d2 -> exists b2 m2, x_minify ev b m = XOk b2 m2 /\ drep d2 b2 m2.
  Proof.
    intros E. unfold minify in E. fold nodes in E. rewrite <- HL in E. destruct (loop (min_step o nodes) (S (length vec)) (mk_mstate 0 (init_groups d) (init_groups d))) as [g| |] eqn:El; cbn [bind] in E; try discriminate.
    assert (Hi : length (init_groups d) = length vec) by (unfold init_groups; rewrite map_length, seq_length; symmetry; exact HL).
    destruct (min_loop_sim _ _ _ _ _ Hi Hi El) as [A Hg].
    assert (G0 : map (fun a => (a, match aget Nat.eqb a (bd_end b) with Some i => S i | None => 0 end)) vec = combine vec (init_groups d)).
    { apply nth_ext'. intros i. rewrite nth_error_map, nth_combine. destruct (nth_error vec i) as [a|] eqn:Ea; [|reflexivity]. assert (Hil : i < length vec) by (apply nth_error_Some; congruence). simpl. unfold init_groups. rewrite nth_map_seq. fold nodes. rewrite (proj2 (Nat.ltb_lt _ _)) by lia. rewrite (placef_nth vec i Hil) in Ea. injection Ea as <-.
      rewrite (dr_end _ _ _ R). fold vec. pose proof (aget_g (placef vec) (placef_inj vec Hd) i (d_end d)) as K. unfold renG in K. rewrite K. reflexivity. }
    unfold x_minify. fold vec. rewrite G0, (xbind_ok _ _ _ _ _ A). rewrite (sets_ren vec g _ Hg (ef_groups _ Hev 0 (combine vec g))). fold f.
    destruct (mapM (min_node o nodes g (length (group_sets g))) (combine (seq 0 (length (group_sets g))) (group_sets g))) as [nodes2| |] eqn:E2; cbn [bind] in E; try discriminate.
    destruct (new_ref g (length (group_sets g)) (d_begin d)) as [bg| |] eqn:E3; cbn [bind] in E; try discriminate.
    destruct (foldM (fun en kv => do k <- new_ref g (length (group_sets g)) (fst kv); Ok (aset Nat.eqb k (snd kv) en)) (d_end d) []) as [en| |] eqn:E4; cbn [bind] in E; try discriminate. injection E as <-.
    destruct (new_d_all ev Hev (map (ren f) (group_sets g)) m) as (vec2 & m1 & N1 & N2 & N3 & N4 & N5 & N6). rewrite map_length in N2. rewrite (xbind_ok _ _ _ _ _ N1), map_length.
    assert (Hlive : forall a, In a vec -> aget Nat.eqb a (bx_dfa m) <> None). { intros a Ha. destruct (placef_of _ _ Ha) as (i & Hil & ->). rewrite HL in Hil. apply nth_error_Some in Hil. destruct (nth_error nodes i) as [nd|] eqn:En; [|congruence]. pose proof (dr_cell _ _ _ R i nd En) as C. fold vec in C. rewrite C. discriminate. }
    assert (Hdis : forall a, In a vec -> ~ In a vec2) by (intros a Ha C; apply (N4 a C), used_d; auto).
    destruct (min_nodes_ok g vec2 _ (group_sets g) Hg N3 N2 Hdis (fun s Hs => group_sets_ok vec g s Hg Hs) 0 nodes2 m1 ltac:(lia) E2) as (m2 & B1 & B2 & B3 & B4 & B5).
    { intros a Ha. rewrite N6, (proj2 (mem_nIn a vec2) (Hdis a Ha)). reflexivity. }
    { intros a Ha. rewrite N6, (proj2 (mem_In a vec2) Ha). discriminate. }
    rewrite (xbind_ok _ _ _ _ _ B1).
    assert (Href : forall n k, n < length nodes -> new_ref g (length (group_sets g)) n = Ok k -> x_new_ref vec2 (combine vec g) (f n) m2 = XOk (placef vec2 k) m2 /\ k < length vec2).
    { intros n k Hn E. unfold new_ref in E. destruct (nth_error g n) as [k0|] eqn:En; cbn [of_opt bind] in E; [|discriminate]. destruct (Nat.ltb_spec k0 (length (group_sets g))) as [Hk0|]; [|discriminate]. injection E as <-. unfold x_new_ref. unfold f. rewrite (aget_combine vec Hd) by (auto; rewrite HL; auto). rewrite (xopt_ok _ _ _ _ En). unfold xopt. rewrite (placef_nth vec2) by lia. split; auto. lia. }
    destruct (Href _ _ Hb E3) as [F1 F2]. pose proof (dr_begin _ _ _ R) as Eb. fold vec f in Eb. rewrite Eb, (xbind_ok _ _ _ _ _ F1).
    assert (Hen : forall (l en0 en1 : list (nat * nat)), (forall i p, In (i, p) l -> i < length nodes) -> foldM (fun en kv => do k <- new_ref g (length (group_sets g)) (fst kv); Ok (aset Nat.eqb k (snd kv) en)) l en0 = Ok en1 ->
      xfold (fun en kv => xdo a <- x_new_ref vec2 (combine vec g) (fst kv); xret (aset Nat.eqb a (snd kv) en)) (map (fun x => (f (fst x), snd x)) l) (renG (placef vec2) en0) m2 = XOk (renG (placef vec2) en1) m2).
    { induction l as [|[i p] l IH]; intros en0 en1 Hl E; cbn [foldM map xfold fst snd] in *; [injection E as <-; reflexivity|]. destruct (new_ref g (length (group_sets g)) i) as [k| |] eqn:Ei; cbn [bind] in E; try discriminate.
      destruct (Href i k (Hl i p (or_introl eq_refl)) Ei) as [X1 _]. assert (X2 : (xdo a <- x_new_ref vec2 (combine vec g) (f i); xret (aset Nat.eqb a p (renG (placef vec2) en0))) m2 = XOk (renG (placef vec2) (aset Nat.eqb k p en0)) m2) by (rewrite (xbind_ok _ _ _ _ _ X1), (aset_g _ (placef_inj vec2 N3)); reflexivity).
      rewrite (xbind_ok _ _ _ _ _ X2). apply IH; auto. intros; eapply Hl; right; eauto. }
    specialize (Hen (d_end d) [] en Hk E4). pose proof (dr_end _ _ _ R) as Ee. fold vec f in Ee. rewrite Ee, (xbind_ok _ _ _ _ _ Hen).
    assert (Hold : forall a, In a vec -> aget Nat.eqb a (bx_dfa m2) = aget Nat.eqb a (bx_dfa m)). { intros a Ha. rewrite B5; [rewrite N6, (proj2 (mem_nIn a vec2) (Hdis a Ha)); reflexivity|]. intros i Hil C. apply (Hdis a Ha). rewrite C. apply placef_In. lia. }
    destruct (free_d_all vec m2 Hd) as (m3 & C1 & C2 & C3); [intros a Ha; rewrite Hold by auto; auto|]. rewrite (xbind_ok _ _ _ _ _ C1). eexists _, m3. split; [reflexivity|].
    split; cbn [bd_vec bd_begin bd_end d_nodes d_begin d_end].
    - lia.
    - auto.
    - intros i nd Ei. rewrite C3. assert (Hin : In (placef vec2 i) vec2) by (apply placef_In; rewrite N2, <- B3; apply nth_error_Some; congruence). rewrite (proj2 (mem_nIn _ vec)) by (intros C; apply (Hdis _ C); auto). apply (B4 i nd Ei).
    - reflexivity.
    - reflexivity.
    - intros a Ha. rewrite C3 in Ha. destruct (mem a vec) eqn:Em; [congruence|]. apply mem_nIn in Em. destruct (in_dec Nat.eq_dec a vec2) as [Hi2|Hi2]; auto. exfalso. apply Em, (dr_dom _ _ _ R). rewrite B5, N6, (proj2 (mem_nIn a vec2) Hi2) in Ha; auto. intros i Hil C. apply Hi2. rewrite C. apply placef_In. lia.
    - rewrite C2, B2, N5. apply R.
  Qed.
End Min.
