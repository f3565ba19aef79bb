(** * The macro [parser!]: names, the loop over the rules, the generated tables *)
From Coq Require Import List Arith Lia Bool String.
From Verif Require Import Lib Grammar LrModel LrSpec LrSets LrStates LrNew LrTop LrMono GramRename ParseModel Trees ParseSpec ParseInv ParseTop ParseMore ParseHash GenModel GenSpec.
Import ListNotations.
Local Notation length := List.length.

(** ** Names *)
Section Names.
  Context {K V : Type} (keq : K -> K -> bool) (keq_eq : forall a b, keq a b = true <-> a = b).

  Lemma name_map_snoc (items : list (K * V)) k v : name_map keq (items ++ [(k, v)]) = aset keq k (length items) (name_map keq items).
  Proof.
    unfold name_map. rewrite app_length. simpl. rewrite Nat.add_1_r, seq_S. simpl.
    assert (G : forall (l1 : list nat) (l2 : list (K * V)) a b, length l1 = length l2 -> combine (l1 ++ [a]) (l2 ++ [b]) = combine l1 l2 ++ [(a, b)]).
    { induction l1 as [|x l1 IH]; intros [|y l2] a b H; simpl in *; try discriminate; auto. rewrite IH; auto. }
    rewrite G by (rewrite seq_length; auto). rewrite fold_left_app. reflexivity.
  Qed.
  Lemma name_map_ok (items : list (K * V)) : forall k,
    match aget keq k (name_map keq items) with
    | Some i => exists v, nth_error items i = Some (k, v) /\ forall v', means items k v' <-> v' = v
    | None => unknown items k
    end.
  Proof.
    induction items as [|[k0 v0] items IH] using rev_ind; intros k.
    - simpl. intros [].
    - rewrite name_map_snoc, (aget_aset keq keq_eq). specialize (IH k). destruct (keq k k0) eqn:E0.
      + apply keq_eq in E0. subst k0. exists v0. split; [rewrite nth_error_app2, Nat.sub_diag; auto|]. intros v'. split.
        * intros (a & b & E0 & Hb). destruct b as [|x b _] using rev_ind; [apply app_inj_tail in E0 as [_ E0]; congruence|].
          exfalso. rewrite app_comm_cons, app_assoc in E0. apply app_inj_tail in E0 as [_ <-]. apply Hb. rewrite map_app. apply in_app_iff. right. left. auto.
        * intros ->. exists items, []. split; auto. intros [].
      + assert (Hm : forall v', means (items ++ [(k0, v0)]) k v' <-> means items k v').
        { intros v'. split.
          - intros (a & b & Eq & Hb). destruct b as [|x b _] using rev_ind.
            + apply app_inj_tail in Eq as [_ Eq]. injection Eq as -> ->. rewrite (keq_refl keq keq_eq) in E0. discriminate.
            + rewrite app_comm_cons, app_assoc in Eq. apply app_inj_tail in Eq as [-> <-]. exists a, b. split; auto.
              intros Hk. apply Hb. rewrite map_app. apply in_app_iff. auto.
          - intros (a & b & -> & Hb). exists a, (b ++ [(k0, v0)]). rewrite <- app_assoc. split; auto.
            unfold unknown. rewrite map_app, in_app_iff. simpl. intros [H|[H|[]]]; [auto|]. subst k0. rewrite (keq_refl keq keq_eq) in E0. discriminate. }
        destruct (aget keq k (name_map keq items)) as [i|].
        * destruct IH as (v & Hi & IH). exists v. split; [rewrite nth_error_app1; auto; apply nth_error_Some; congruence|]. intros v'. rewrite Hm. apply IH.
        * unfold unknown. rewrite map_app, in_app_iff. simpl. intros [H|[H|[]]]; [auto|]. subst k0. rewrite (keq_refl keq keq_eq) in E0. discriminate.
  Qed.
  Lemma means_In (items : list (K * V)) k v : means items k v -> In (k, v) items.
  Proof. intros (a & b & -> & _). apply in_app_iff. right. left. auto. Qed.
  Lemma name_map_means (items : list (K * V)) k v : means items k v -> exists i, aget keq k (name_map keq items) = Some i /\ nth_error items i = Some (k, v).
  Proof.
    intros H. pose proof (name_map_ok items k) as G. destruct (aget keq k (name_map keq items)) as [i|].
    - destruct G as (v' & Hi & G). apply G in H. subst v'. eauto.
    - exfalso. apply G. apply means_In in H. apply in_map_iff. exists (k, v). auto.
  Qed.
  Lemma name_map_get (items : list (K * V)) k i : aget keq k (name_map keq items) = Some i -> exists v, means items k v /\ nth_error items i = Some (k, v).
  Proof.
    intros H. pose proof (name_map_ok items k) as G. rewrite H in G. destruct G as (v & Hi & G). exists v. split; auto. apply G. auto.
  Qed.
End Names.
Lemma token_key_eq a b : token_key_eqb a b = true <-> a = b.
Proof. destruct a, b; simpl; rewrite ?String.eqb_eq; split; congruence. Qed.

(** ** Extending an injection of a finite set *)
Lemma extend (D : list nat) (v : nat -> nat) : (forall x y, In x D -> In y D -> v x = v y -> x = y) ->
  exists f, (forall x y, f x = f y -> x = y) /\ forall x, In x D -> f x = v x.
Proof.
  intros Hinj. exists (fun x => if existsb (Nat.eqb x) D then v x else S (list_max (map v D)) + x). split.
  - assert (Hmax : forall x, In x D -> v x <= list_max (map v D)).
    { intros x Hx. assert (G : Forall (fun k => k <= list_max (map v D)) (map v D)) by (apply list_max_le; auto).
      rewrite Forall_forall in G. apply G. apply in_map. auto. }
    intros x y. destruct (existsb (Nat.eqb x) D) eqn:Ex; destruct (existsb (Nat.eqb y) D) eqn:Ey; intros E.
    + apply existsb_eqb in Ex. apply existsb_eqb in Ey. auto.
    + apply existsb_eqb in Ex. specialize (Hmax x Ex). lia.
    + apply existsb_eqb in Ey. specialize (Hmax y Ey). lia.
    + lia.
  - intros x Hx. apply existsb_eqb in Hx. rewrite Hx. reflexivity.
Qed.

(** ** Inserting renamed entries *)
Section Insert.
  Context {K K' V V' : Type} (keq : K -> K -> bool) (keq' : K' -> K' -> bool).
  Hypothesis keq_eq : forall a b, keq a b = true <-> a = b.
  Hypothesis keq_eq' : forall a b, keq' a b = true <-> a = b.
  Variables (kf : K -> res K') (vf : V -> res V') (phi : K -> K').
  Hypothesis Hphi : forall x y, phi x = phi y -> x = y.
  Definition insert_step (m : list (K' * V')) (ka : K * V) : res (list (K' * V')) :=
    do k <- kf (fst ka); do v <- vf (snd ka); Ok (aset keq' k v m).
  Lemma insert_ok l : NoDup (map fst l) -> (forall k v, In (k, v) l -> kf k = Ok (phi k) /\ exists v', vf v = Ok v') ->
    exists m, foldM insert_step l [] = Ok m /\
      (forall k, aget keq' (phi k) m = match aget keq k l with Some v => match vf v with Ok v' => Some v' | _ => None end | None => None end) /\
      (forall k' v, aget keq' k' m = Some v -> exists k, k' = phi k).
  Proof.
    induction l as [|[k v] l IH] using rev_ind; intros Hnd H.
    - exists []. simpl. split; auto. split; auto. discriminate.
    - rewrite map_app in Hnd. simpl in Hnd. apply NoDup_remove in Hnd as [Hnd Hk]. rewrite app_nil_r in Hnd, Hk.
      destruct IH as (m & Em & M1 & M2); [auto|intros k0 v0 H0; apply H; apply in_app_iff; auto|].
      destruct (H k v) as (Ek & v' & Ev); [apply in_app_iff; right; left; auto|].
      exists (aset keq' (phi k) v' m). rewrite foldM_app, Em. cbn [bind foldM]. unfold insert_step at 1. cbn [fst snd]. rewrite Ek, Ev. cbn [bind]. split; auto. split.
      + intros k0. rewrite (aget_aset keq' keq_eq'). destruct (keq' (phi k0) (phi k)) eqn:E0.
        * apply keq_eq' in E0. apply Hphi in E0. subst k0.
          assert (G : aget keq k (l ++ [(k, v)]) = Some v).
          { clear - keq_eq Hk. induction l as [|[k1 v1] l IH]; simpl; [rewrite (keq_refl keq keq_eq); auto|]. simpl in Hk.
            replace (keq k k1) with false; [apply IH; tauto|]. symmetry. apply (keq_neq keq keq_eq). intros ->. tauto. }
          rewrite G, Ev. auto.
        * rewrite M1. assert (G : aget keq k0 (l ++ [(k, v)]) = aget keq k0 l).
          { assert (Hne : keq k0 k = false). { apply (keq_neq keq keq_eq). intros ->. rewrite (keq_refl keq' keq_eq') in E0. discriminate. }
            clear - Hne. induction l as [|[k1 v1] l IH]; simpl; [rewrite Hne; auto|]. destruct (keq k0 k1); auto. }
          rewrite G. auto.
      + intros k' v0. rewrite (aget_aset keq' keq_eq'). destruct (keq' k' (phi k)) eqn:E0; [apply keq_eq' in E0; eauto|apply M2].
  Qed.
End Insert.

(** ** The loop over the rules *)
Section Loop.
  Context {N T E : Type} (nix : N -> nat) (tix : T -> nat).
  Variable mi : minput N T E.
  Let tm := name_map token_key_eqb (mi_tokens mi).
  Let sm := name_map String.eqb (mi_symbols mi).

  Lemma tm_get k i : aget token_key_eqb k tm = Some i -> exists v, means (mi_tokens mi) k v /\ nth_error (mi_tokens mi) i = Some (k, v).
  Proof. apply (name_map_get token_key_eqb token_key_eq). Qed.
  Lemma sm_get k i : aget String.eqb k sm = Some i -> exists v, means (mi_symbols mi) k v /\ nth_error (mi_symbols mi) i = Some (k, v).
  Proof. apply (name_map_get String.eqb String.eqb_eq). Qed.
  Lemma tm_none k : aget token_key_eqb k tm = None -> unknown (mi_tokens mi) k.
  Proof. intros H. pose proof (name_map_ok token_key_eqb token_key_eq (mi_tokens mi) k) as G. fold tm in G. rewrite H in G. auto. Qed.
  Lemma sm_none k : aget String.eqb k sm = None -> unknown (mi_symbols mi) k.
  Proof. intros H. pose proof (name_map_ok String.eqb String.eqb_eq (mi_symbols mi) k) as G. fold sm in G. rewrite H in G. auto. Qed.

  Definition rule_ok (rules : list (bnf_rule N T E)) (st : mstate) (i : nat) (r : bnf_rule N T E) : Prop :=
    exists n idx items, rule_name rules i n /\ aget String.eqb n sm = Some idx /\ nth_error (ms_keys st) i = Some idx /\
      Forall2 (fun x y => item_symbol tm sm x = Ok y) (bn_rule r) items /\
      nth_error (ms_rules st) i = Some (rule_new_raw idx items (fun _ => GPanic)).

  Lemma nth_error_snoc {A} (l : list A) x i y : nth_error (l ++ [x]) i = Some y -> nth_error l i = Some y \/ (i = length l /\ y = x).
  Proof.
    intros H. destruct (Nat.lt_ge_cases i (length l)) as [Hl|Hl]; [rewrite nth_error_app1 in H; auto|].
    rewrite nth_error_app2 in H by auto. destruct (i - length l) as [|d] eqn:Ed; simpl in H; [|destruct d; discriminate]. right. split; [lia|congruence].
  Qed.
  Lemma nth_error_app_l {A} (l l' : list A) i y : nth_error l i = Some y -> nth_error (l ++ l') i = Some y.
  Proof. intros H. rewrite nth_error_app1; auto. apply nth_error_Some. congruence. Qed.
  Lemma nth_error_last {A} (l : list A) x : nth_error (l ++ [x]) (length l) = Some x.
  Proof. rewrite nth_error_app2, Nat.sub_diag; auto. Qed.
  Lemma rule_name_app (rules : list (bnf_rule N T E)) r i n : i < length rules -> rule_name rules i n -> rule_name (rules ++ [r]) i n.
  Proof.
    intros Hi (j & r0 & H1 & H2 & H3 & H4). exists j, r0. split; auto. split; [apply nth_error_app_l; auto|]. split; auto.
    intros k r' Hk Hr'. rewrite nth_error_app1 in Hr' by lia. eauto.
  Qed.

  Lemma loop_ok (rules : list (bnf_rule N T E)) : forall st, foldM (rule_step tm sm) rules (mk_ms None [] sb_new) = Ok st ->
    length (ms_keys st) = length rules /\ length (ms_rules st) = length rules /\
    (forall i r, nth_error rules i = Some r -> rule_ok rules st i r) /\
    match ms_above st with
    | None => rules = []
    | Some idx => exists i n, S i = length rules /\ rule_name rules i n /\ aget String.eqb n sm = Some idx
    end.
  Proof.
    induction rules as [|r rules IH] using rev_ind; intros st H.
    - simpl in H. injection H as <-. simpl. split; auto. split; auto. split; auto. intros [|i] r H; discriminate.
    - rewrite foldM_app in H. apply bind_Ok in H as (st0 & E0 & H). destruct (IH _ E0) as (A & B & C & D). simpl in H. apply bind_Ok in H as (st1 & H & H'). injection H' as <-.
      unfold rule_step in H. apply bind_Ok in H as (idx & Hidx & H). apply bind_Ok in H as (items & Hitems & H). injection H as <-. apply of_opt_Ok in Hidx. apply mapM_Ok in Hitems.
      cbn [ms_keys ms_rules ms_above]. unfold sb_rule. rewrite !app_length. simpl. split; [lia|]. split; [lia|].
      assert (Hname : exists n, rule_name (rules ++ [r]) (length rules) n /\ aget String.eqb n sm = Some idx).
      { destruct (bn_key r) as [n|] eqn:Ek.
        - exists n. split; auto. exists (length rules), r. split; auto. split; [apply nth_error_last|]. split; auto. intros k r' Hk. lia.
        - rewrite Hidx in D. destruct D as (i & n & Hi & (j & r0 & H1 & H2 & H3 & H4) & Hn). exists n. split; auto. exists j, r0. split; [lia|]. split; [apply nth_error_app_l; auto|]. split; auto.
          intros k r' Hk Hr'. apply nth_error_snoc in Hr' as [Hr'|[-> ->]]; [|auto]. apply (H4 k r'); auto. assert (k < length rules) by (apply nth_error_Some; congruence). lia. }
      destruct Hname as (n & Hn & Hg). split.
      + intros i r0 Hr0. destruct (nth_error_snoc _ _ _ _ Hr0) as [Hr1|[-> ->]].
        * destruct (C i r0 Hr1) as (n' & idx' & items' & C1 & C2 & C3 & C4 & C5). exists n', idx', items'.
          split; [apply rule_name_app; auto; apply nth_error_Some; congruence|]. split; auto. split; [apply nth_error_app_l; auto|]. split; auto. apply nth_error_app_l. auto.
        * exists n, idx, items. split; auto. split; auto. split; [rewrite <- A; apply nth_error_last|]. split; auto. rewrite <- B. apply nth_error_last.
      + exists (length rules), n. split; [lia|]. auto.
  Qed.

  Definition bad_rule (rules : list (bnf_rule N T E)) : Prop :=
    (exists r rest, rules = r :: rest /\ bn_key r = Follow) \/
    exists r, In r rules /\
      ((exists n, bn_key r = Named n /\ unknown (mi_symbols mi) n) \/
       (exists k, In (BTerminal k) (bn_rule r) /\ unknown (mi_tokens mi) k) \/
       (exists n, In (BNonTerminal n) (bn_rule r) /\ unknown (mi_symbols mi) n)).

  Lemma items_panic l : match mapM (item_symbol tm sm) l with
    | Ok _ => True
    | Panic => (exists k, In (BTerminal k) l /\ unknown (mi_tokens mi) k) \/ (exists n, In (BNonTerminal n) l /\ unknown (mi_symbols mi) n)
    | OutOfFuel => False
    end.
  Proof.
    induction l as [|x l IH]; [exact I|]. cbn [mapM].
    destruct (item_symbol tm sm x) as [y| |] eqn:Ex; cbn [bind].
    - destruct (mapM (item_symbol tm sm) l) as [ys| |]; cbn [bind]; auto. destruct IH as [(k & H & H')|(k & H & H')]; [left|right]; exists k; split; auto; right; auto.
    - destruct x as [k|n|]; simpl in Ex.
      + destruct (aget token_key_eqb k tm) eqn:Eg; simpl in Ex; [discriminate|]. left. exists k. split; [left; auto|apply tm_none; auto].
      + destruct (aget String.eqb n sm) eqn:Eg; simpl in Ex; [discriminate|]. right. exists n. split; [left; auto|apply sm_none; auto].
      + discriminate.
    - destruct x as [k|n|]; simpl in Ex; [destruct (aget token_key_eqb k tm)|destruct (aget String.eqb n sm)|]; discriminate.
  Qed.

  Lemma loop_panic (rules : list (bnf_rule N T E)) : match foldM (rule_step tm sm) rules (mk_ms None [] sb_new) with Ok _ => True | Panic => bad_rule rules | OutOfFuel => False end.
  Proof.
    induction rules as [|r rules IH] using rev_ind; [exact I|]. rewrite foldM_app. pose proof (loop_ok rules) as L.
    destruct (foldM (rule_step tm sm) rules (mk_ms None [] sb_new)) as [st| |]; cbn [bind]; [| |auto].
    - destruct (L st eq_refl) as (_ & _ & _ & D). simpl. unfold rule_step.
      pose proof (items_panic (bn_rule r)) as Hi.
      assert (Hin : In r (rules ++ [r])) by (apply in_app_iff; right; left; auto).
      destruct (bn_key r) as [n|] eqn:Ek.
      + destruct (aget String.eqb n sm) as [idx|] eqn:En; cbn [of_opt bind].
        * destruct (mapM (item_symbol tm sm) (bn_rule r)); cbn [bind]; auto. right. exists r. split; auto.
        * right. exists r. split; auto. left. exists n. split; auto. apply sm_none. auto.
      + destruct (ms_above st) as [idx|]; cbn [of_opt bind].
        * destruct (mapM (item_symbol tm sm) (bn_rule r)); cbn [bind]; auto. right. exists r. split; auto.
        * subst rules. left. exists r, []. auto.
    - destruct IH as [(r0 & rest & -> & H)|(r0 & Hr0 & H)]; [left; exists r0, (rest ++ [r]); auto|right; exists r0; split; auto; apply in_app_iff; auto].
  Qed.

  Lemma loop_good (rules : list (bnf_rule N T E)) st : foldM (rule_step tm sm) rules (mk_ms None [] sb_new) = Ok st -> ~ bad_rule rules.
  Proof.
    intros H. destruct (loop_ok _ _ H) as (_ & _ & C & _). intros [(r & rest & -> & Hk)|(r & Hr & Hb)].
    - destruct (C 0 r eq_refl) as (n & idx & items & (j & r0 & Hj & Hr0 & Hn & _) & _). assert (j = 0) by lia. subst j. simpl in Hr0. congruence.
    - apply In_nth_error in Hr as [i Hr]. destruct (C i r Hr) as (n & idx & items & Hname & Hget & _ & Hit & _). destruct Hb as [(n' & Hk & Hu)|[(k & Hk & Hu)|(n' & Hk & Hu)]].
      + destruct Hname as (j & r0 & Hj & Hr0 & Hn & Hf). destruct (Nat.eq_dec j i) as [->|Hne].
        * assert (r0 = r) by congruence. subst r0. assert (n' = n) by congruence. subst n'. apply sm_get in Hget as (v & Hv & _). apply Hu. apply in_map_iff. exists (n, v). split; auto. apply means_In. auto.
        * rewrite (Hf i r) in Hk by (auto; lia). discriminate.
      + destruct (Forall2_In_l _ _ _ _ Hit Hk) as (y & _ & Hy). simpl in Hy. apply bind_Ok in Hy as (a & Ha & _). apply of_opt_Ok in Ha. apply tm_get in Ha as (v & Hv & _).
        apply Hu. apply in_map_iff. exists (k, v). split; auto. apply means_In. auto.
      + destruct (Forall2_In_l _ _ _ _ Hit Hk) as (y & _ & Hy). simpl in Hy. apply bind_Ok in Hy as (a & Ha & _). apply of_opt_Ok in Ha. apply sm_get in Ha as (v & Hv & _).
        apply Hu. apply in_map_iff. exists (n', v). split; auto. apply means_In. auto.
  Qed.
End Loop.
