(** The boxes of the TokenizerNFA (for C85). *)
From Coq Require Import Permutation.
From Verif Require Import Lib Hir NfaPath NfaModel NfaProofs MemModel MemProofs MemRep MemTok TokNfa DfaModel MinModel BoxModel BoxSpec.

Lemma xbind_ok {A B} (x : X A) (f : A -> X B) m a m' : x m = XOk a m' -> xbind x f m = f a m'.
Proof. intros H. unfold xbind. rewrite H. reflexivity. Qed.
Lemma xopt_ok {A B} (o : option A) a (f : A -> X B) m : o = Some a -> xbind (xopt o) f m = f a m.
Proof. intros ->. reflexivity. Qed.

Lemma aget_without {V} a b (l : list (nat * V)) : aget Nat.eqb b (without a l) = if Nat.eqb b a then None else aget Nat.eqb b l.
Proof.
  induction l as [|[k v] l IH]; simpl; [destruct (Nat.eqb b a); auto|]. destruct (Nat.eqb_spec a k) as [E|E]; simpl.
  - rewrite IH. destruct (Nat.eqb_spec b a) as [E1|E1]; auto. destruct (Nat.eqb_spec b k); [congruence|auto].
  - rewrite IH. destruct (Nat.eqb_spec b k) as [E1|E1]; auto. destruct (Nat.eqb_spec b a); [congruence|auto].
Qed.
Lemma aget_dom {V} a (l : list (nat * V)) : aget Nat.eqb a l <> None <-> In a (map fst l).
Proof.
  induction l as [|[k v] l IH]; simpl; [tauto|]. destruct (Nat.eqb_spec a k) as [E|E]; [split; [auto|congruence]|]. rewrite IH. split; [auto|intros [H|H]; [congruence|auto]].
Qed.
Lemma aget_empty {V} (l : list (nat * V)) : (forall a, aget Nat.eqb a l = None) -> l = [].
Proof. destruct l as [|[k v] l]; auto. intros H. specialize (H k). simpl in H. rewrite Nat.eqb_refl in H. discriminate. Qed.

(** The drops *)
Lemma free_n_all l : forall m, NoDup l -> (forall a, In a l -> aget Nat.eqb a (bx_nfa m) <> None) ->
  exists m', xiter free_n l m = XOk tt m' /\ bx_dfa m' = bx_dfa m /\ forall a, aget Nat.eqb a (bx_nfa m') = if mem a l then None else aget Nat.eqb a (bx_nfa m).
Proof.
  induction l as [|x l IH]; intros m Hn Hl; [exists m; repeat split; auto|]. inversion Hn as [|? ? Hx Hn']; subst. destruct (aget Nat.eqb x (bx_nfa m)) as [nd|] eqn:E; [|exfalso; apply (Hl x); simpl; auto].
  set (m1 := mk_boxes (without x (bx_nfa m)) (bx_dfa m) (bx_clock m)). destruct (IH m1 Hn') as (m' & A & B & C).
  - intros a Ha. unfold m1. cbn [bx_nfa]. rewrite aget_without. destruct (Nat.eqb_spec a x); [subst; contradiction|]. apply Hl. simpl. auto.
  - exists m'. unfold xiter in *. cbn [xmap]. assert (F : free_n x m = XOk tt m1) by (unfold free_n; rewrite E; reflexivity).
    assert (G : exists us, xmap free_n l m1 = XOk us m') by (unfold xbind, xret in A; destruct (xmap free_n l m1) as [us m2| | | |]; try discriminate; exists us; congruence). destruct G as [us G].
    split; [unfold xbind; rewrite F, G; reflexivity|]. split; [exact B|]. intros a. rewrite C. unfold m1. cbn [bx_nfa]. rewrite aget_without. unfold mem. simpl. change (existsb (eqb a) l) with (mem a l).
    destruct (Nat.eqb_spec a x) as [->|N0]; [rewrite eqb_refl; simpl; destruct (mem x l); auto|]. rewrite (proj2 (eqb_neq a x) N0). reflexivity.
Qed.
Lemma free_d_all l : forall m, NoDup l -> (forall a, In a l -> aget Nat.eqb a (bx_dfa m) <> None) ->
  exists m', xiter free_d l m = XOk tt m' /\ bx_nfa m' = bx_nfa m /\ forall a, aget Nat.eqb a (bx_dfa m') = if mem a l then None else aget Nat.eqb a (bx_dfa m).
Proof.
  induction l as [|x l IH]; intros m Hn Hl; [exists m; repeat split; auto|]. inversion Hn as [|? ? Hx Hn']; subst. destruct (aget Nat.eqb x (bx_dfa m)) as [nd|] eqn:E; [|exfalso; apply (Hl x); simpl; auto].
  set (m1 := mk_boxes (bx_nfa m) (without x (bx_dfa m)) (bx_clock m)). destruct (IH m1 Hn') as (m' & A & B & C).
  - intros a Ha. unfold m1. cbn [bx_dfa]. rewrite aget_without. destruct (Nat.eqb_spec a x); [subst; contradiction|]. apply Hl. simpl. auto.
  - exists m'. unfold xiter in *. cbn [xmap]. assert (F : free_d x m = XOk tt m1) by (unfold free_d; rewrite E; reflexivity).
    assert (G : exists us, xmap free_d l m1 = XOk us m') by (unfold xbind, xret in A; destruct (xmap free_d l m1) as [us m2| | | |]; try discriminate; exists us; congruence). destruct G as [us G].
    split; [unfold xbind; rewrite F, G; reflexivity|]. split; [exact B|]. intros a. rewrite C. unfold m1. cbn [bx_dfa]. rewrite aget_without. unfold mem. simpl. change (existsb (eqb a) l) with (mem a l).
    destruct (Nat.eqb_spec a x) as [->|N0]; [rewrite eqb_refl; simpl; destruct (mem x l); auto|]. rewrite (proj2 (eqb_neq a x) N0). reflexivity.
Qed.

Lemma NoDup_app' {A} (l1 l2 : list A) : NoDup l1 -> NoDup l2 -> (forall a, In a l1 -> ~ In a l2) -> NoDup (l1 ++ l2).
Proof.
  induction l1 as [|x l1 IH]; intros H1 H2 H; simpl; auto. inversion H1; subst. constructor; [|apply IH; auto; intros; apply H; simpl; auto]. intros C. apply in_app_or in C as [C|C]; auto. apply (H x); simpl; auto.
Qed.

Section Nfa.
  Variables (ev : box_env) (Hev : env_fine ev).

  Lemma new_n_fresh m : ~ In (ev_alloc ev (bx_clock m) (used m)) (used m). Proof. apply ef_alloc, Hev. Qed.
  Lemma used_n m a : aget Nat.eqb a (bx_nfa m) <> None -> In a (used m).
  Proof. intros H. apply in_or_app. left. apply aget_dom. auto. Qed.
  Lemma used_d m a : aget Nat.eqb a (bx_dfa m) <> None -> In a (used m).
  Proof. intros H. apply in_or_app. right. apply aget_dom. auto. Qed.

  Lemma new_n_all {A} (l : list A) : forall m, exists news m', xmap (fun _ => new_n ev) l m = XOk news m' /\ length news = length l /\ NoDup news /\
    (forall a, In a news -> ~ In a (used m)) /\ bx_dfa m' = bx_dfa m /\ forall a, aget Nat.eqb a (bx_nfa m') = if mem a news then Some nnode_default else aget Nat.eqb a (bx_nfa m).
  Proof.
    induction l as [|x l IH]; intros m; [exists [], m; repeat split; auto; constructor|]. set (a := ev_alloc ev (bx_clock m) (used m)). set (m1 := mk_boxes ((a, nnode_default) :: bx_nfa m) (bx_dfa m) (S (bx_clock m))).
    destruct (IH m1) as (news & m' & A1 & A2 & A3 & A4 & A5 & A6). pose proof (new_n_fresh m) as Ha. fold a in Ha. exists (a :: news), m'. cbn [xmap].
    split; [rewrite (xbind_ok _ _ m a m1) by reflexivity; rewrite (xbind_ok _ _ m1 news m') by exact A1; reflexivity|]. split; [simpl; lia|].
    assert (Hu : forall b, In b news -> b <> a /\ ~ In b (used m)). { intros b Hb. specialize (A4 b Hb). unfold used, m1 in A4. cbn [bx_nfa bx_dfa map fst] in A4. simpl in A4. split; [intros ->; apply A4; auto|intros C; apply A4; right; exact C]. }
    split; [constructor; auto; intros C; destruct (Hu a C) as [C1 _]; congruence|]. split; [intros b [<-|Hb]; [exact Ha|apply Hu; auto]|]. split; [exact A5|].
    intros b. rewrite A6. unfold m1. cbn [bx_nfa aget]. unfold mem. simpl. change (existsb (eqb b) news) with (mem b news). destruct (Nat.eqb_spec b a) as [->|N0]; [rewrite eqb_refl; simpl; destruct (mem a news); auto|]. rewrite (proj2 (eqb_neq b a) N0). reflexivity.
  Qed.
  Lemma new_d_all {A} (l : list A) : forall m, exists news m', xmap (fun _ => new_d ev) l m = XOk news m' /\ length news = length l /\ NoDup news /\
    (forall a, In a news -> ~ In a (used m)) /\ bx_nfa m' = bx_nfa m /\ forall a, aget Nat.eqb a (bx_dfa m') = if mem a news then Some [] else aget Nat.eqb a (bx_dfa m).
  Proof.
    induction l as [|x l IH]; intros m; [exists [], m; repeat split; auto; constructor|]. set (a := ev_alloc ev (bx_clock m) (used m)). set (m1 := mk_boxes (bx_nfa m) ((a, []) :: bx_dfa m) (S (bx_clock m))).
    destruct (IH m1) as (news & m' & A1 & A2 & A3 & A4 & A5 & A6). pose proof (new_n_fresh m) as Ha. fold a in Ha. exists (a :: news), m'. cbn [xmap].
    split; [rewrite (xbind_ok _ _ m a m1) by reflexivity; rewrite (xbind_ok _ _ m1 news m') by exact A1; reflexivity|]. split; [simpl; lia|].
    assert (Hu : forall b, In b news -> b <> a /\ ~ In b (used m)). { intros b Hb. specialize (A4 b Hb). unfold used, m1 in A4. cbn [bx_nfa bx_dfa map fst] in A4. rewrite in_app_iff in A4. simpl in A4. split; [intros ->; apply A4; auto|intros C; apply A4; unfold used in C; rewrite in_app_iff in C; tauto]. }
    split; [constructor; auto; intros C; destruct (Hu a C) as [C1 _]; congruence|]. split; [intros b [<-|Hb]; [exact Ha|apply Hu; auto]|]. split; [exact A5|].
    intros b. rewrite A6. unfold m1. cbn [bx_dfa aget]. unfold mem. simpl. change (existsb (eqb b) news) with (mem b news). destruct (Nat.eqb_spec b a) as [->|N0]; [rewrite eqb_refl; simpl; destruct (mem a news); auto|]. rewrite (proj2 (eqb_neq b a) N0). reflexivity.
  Qed.

  (** Filling the new boxes *)
  Definition fill (h : heap) (f : nat -> option nat) (x : nat * nat) : X unit := xdo nd <- xopt (nth_error h (snd x)); xdo nd' <- xlift (copy_node f nd); write_n (fst x) (fun _ => nd').
  Lemma fill_all (h : heap) f : forall news ns olds outs m, Forall2 (fun p o => nth_error h p = Some o) ns olds -> Forall2 (fun o n => copy_node f o = NOk n) olds outs -> length news = length ns -> NoDup news ->
    (forall a, In a news -> aget Nat.eqb a (bx_nfa m) <> None) ->
    exists m', xiter (fill h f) (combine news ns) m = XOk tt m' /\ bx_dfa m' = bx_dfa m /\
      (forall i a, nth_error news i = Some a -> aget Nat.eqb a (bx_nfa m') = nth_error outs i) /\ forall a, ~ In a news -> aget Nat.eqb a (bx_nfa m') = aget Nat.eqb a (bx_nfa m).
  Proof.
    induction news as [|a news IH]; intros ns olds outs m Ho Hn Hl Hd Hm; destruct ns as [|p ns]; try discriminate.
    - exists m. split; [reflexivity|]. split; auto. split; auto. intros [|i] b E; discriminate.
    - inversion Ho as [|? o ? olds' Eo Ho']; subst. inversion Hn as [|? n ? outs' En Hn']; subst. inversion Hd as [|? ? Ha Hd']; subst. simpl in Hl.
      destruct (aget Nat.eqb a (bx_nfa m)) as [nd0|] eqn:Ea; [|exfalso; apply (Hm a); simpl; auto]. set (m1 := mk_boxes (aset Nat.eqb a n (bx_nfa m)) (bx_dfa m) (bx_clock m)).
      assert (G : forall b, aget Nat.eqb b (bx_nfa m1) = if Nat.eqb b a then Some n else aget Nat.eqb b (bx_nfa m)) by (intros b; unfold m1; cbn [bx_nfa]; apply aget_aset, Nat.eqb_eq).
      destruct (IH ns olds' outs' m1) as (m' & A & B & C & D); auto; try lia.
      { intros b Hb. rewrite G. destruct (Nat.eqb b a); [discriminate|]. apply Hm. simpl. auto. }
      exists m'. unfold xiter in *. cbn [combine xmap]. assert (F : fill h f (a, p) m = XOk tt m1). { unfold fill. cbn [fst snd]. rewrite (xopt_ok _ _ _ _ Eo). unfold xlift. rewrite En. unfold xbind, write_n. rewrite Ea. reflexivity. }
      assert (K : exists us, xmap (fill h f) (combine news ns) m1 = XOk us m') by (unfold xbind, xret in A; destruct (xmap (fill h f) (combine news ns) m1) as [us m2| | | |]; try discriminate; exists us; congruence). destruct K as [us K].
      split; [unfold xbind; rewrite F, K; reflexivity|]. split; [exact B|]. split.
      + intros [|i] b E; simpl in E |- *; [injection E as <-; rewrite (D a Ha), G, Nat.eqb_refl; reflexivity|apply C; auto].
      + intros b Hb. rewrite D by (simpl in Hb; tauto). rewrite G. destruct (Nat.eqb_spec b a) as [->|]; auto. simpl in Hb. tauto.
  Qed.

  (** copying with pointers for positions *)
  Lemma copy_img vec f F nd nd' : (forall p j, f p = Some j -> F p = Some (at_ vec j)) -> copy_node f nd = NOk nd' -> copy_node F nd = NOk (img vec nd').
  Proof.
    intros HF. assert (HL : forall l e, nmapM (fun p => n_of_opt (f p)) l = NOk e -> nmapM (fun p => n_of_opt (F p)) l = NOk (map (at_ vec) e)).
    { induction l as [|p l IH]; intros e H; simpl in *; [injection H as <-; reflexivity|]. destruct (f p) as [j|] eqn:Ej; simpl in H; [|discriminate]. rewrite (HF _ _ Ej). simpl. destruct (nmapM (fun p => n_of_opt (f p)) l) as [e'| |]; simpl in H; try discriminate. injection H as <-. rewrite (IH e' eq_refl). reflexivity. }
    assert (HS : forall e, to_set (map (at_ vec) e) = img_set vec (to_set e)). { intros e. apply sorted_ext; [apply sorted_to_set|apply sorted_to_set|]. intros a. unfold img_set. rewrite !In_to_set, !in_map_iff. split; intros (i & E & Hi); exists i; (split; [exact E|]); apply In_to_set; auto. }
    intros H. unfold copy_node in *. destruct (nmapM _ (n_eps nd)) as [e| |] eqn:E1; simpl in H; try discriminate. rewrite (HL _ _ E1). simpl.
    destruct (nmapM _ (n_next nd)) as [nx| |] eqn:E2; simpl in H; try discriminate. injection H as <-.
    assert (HN : forall l nx, nmapM (fun kv : crange * list nat => ndo v <- nmapM (fun p => n_of_opt (f p)) (snd kv); NOk (fst kv, to_set v)) l = NOk nx ->
      nmapM (fun kv : crange * list nat => ndo v <- nmapM (fun p => n_of_opt (F p)) (snd kv); NOk (fst kv, to_set v)) l = NOk (map (fun x => (fst x, img_set vec (snd x))) nx)).
    { induction l as [|[r s] l IH]; intros nx' H; simpl in *; [injection H as <-; reflexivity|]. destruct (nmapM (fun p => n_of_opt (f p)) s) as [v| |] eqn:Ev; simpl in H; try discriminate. rewrite (HL _ _ Ev). simpl.
      destruct (nmapM (fun kv : crange * list nat => ndo v <- nmapM (fun p => n_of_opt (f p)) (snd kv); NOk (fst kv, to_set v)) l) as [nx2| |]; simpl in H; try discriminate. injection H as <-. rewrite (IH nx2 eq_refl). simpl. rewrite HS. reflexivity. }
    rewrite (HN _ _ E2). simpl. unfold img. cbn [n_eps n_next]. rewrite HS. reflexivity.
  Qed.

  Definition sets_sorted (nd : nnode) : Prop := sorted (n_eps nd) /\ forall r s, In (r, s) (n_next nd) -> sorted s.
  Lemma copy_sorted f nd nd' : copy_node f nd = NOk nd' -> sets_sorted nd'.
  Proof.
    intros H. unfold copy_node in H. destruct (nmapM _ (n_eps nd)) as [e| |] eqn:E1; simpl in H; try discriminate. destruct (nmapM _ (n_next nd)) as [nx| |] eqn:E2; simpl in H; try discriminate. injection H as <-. split; cbn [n_eps n_next]; [apply sorted_to_set|].
    intros r s Hi. apply nmapM_elems in E2. destruct (Forall2_In_r _ _ _ _ E2 Hi) as (x & _ & E). destruct (nmapM _ (snd x)) as [v| |]; simpl in E; try discriminate. injection E as _ <-. apply sorted_to_set.
  Qed.
  (** ** The loop over the patterns *)
  Record held_n (vec : list nat) (nodes : list nnode) (begin : nat) (beps : list nat) (m : boxes) : Prop := {
    hn_len : length vec = length nodes;
    hn_dup : NoDup (vec ++ [begin]);
    hn_cell : forall i nd, nth_error nodes i = Some nd -> aget Nat.eqb (at_ vec i) (bx_nfa m) = Some (img vec nd);
    hn_to : forall i nd q, nth_error nodes i = Some nd -> target nd q -> q < length nodes;
    hn_begin : aget Nat.eqb begin (bx_nfa m) = Some (mk_nnode (img_set vec beps) []);
    hn_beps : forall q, In q beps -> q < length nodes;
    hn_dom : forall a, aget Nat.eqb a (bx_nfa m) <> None -> In a (vec ++ [begin]);
    hn_dfa : bx_dfa m = [];
    hn_sets : forall i nd, nth_error nodes i = Some nd -> sets_sorted nd;
    hn_bset : sorted beps
  }.
  Lemma held_live vec nodes begin beps m a : held_n vec nodes begin beps m -> In a (vec ++ [begin]) -> aget Nat.eqb a (bx_nfa m) <> None.
  Proof.
    intros H Ha. apply in_app_or in Ha as [Ha|[<-|[]]]; [|rewrite (hn_begin _ _ _ _ _ H); discriminate]. apply In_nth_error in Ha as [i Ei]. assert (Hi : i < length nodes) by (rewrite <- (hn_len _ _ _ _ _ H); apply nth_error_Some; congruence).
    apply nth_error_Some in Hi. destruct (nth_error nodes i) as [nd|] eqn:En; [|congruence]. pose proof (hn_cell _ _ _ _ _ H i nd En) as C. unfold at_ in C. rewrite (nth_error_nth _ _ _ Ei) in C. rewrite C. discriminate.
  Qed.

  Lemma copy_target f nd nd' q : copy_node f nd = NOk nd' -> target nd' q -> exists p, f p = Some q.
  Proof.
    assert (HL : forall l e, nmapM (fun p => n_of_opt (f p)) l = NOk e -> forall q, In q e -> exists p, f p = Some q).
    { intros l e H q0 Hq. apply nmapM_elems in H. induction H as [|p j l e E H IH]; [destruct Hq|]. destruct Hq as [<-|Hq]; auto. exists p. destruct (f p); simpl in E; congruence. }
    intros H Ht. unfold copy_node in H. destruct (nmapM _ (n_eps nd)) as [e| |] eqn:E1; simpl in H; try discriminate. destruct (nmapM _ (n_next nd)) as [nx| |] eqn:E2; simpl in H; try discriminate. injection H as <-.
    destruct Ht as [Ht|(r & s & Hi & Hq)]; cbn [n_eps n_next] in *; [rewrite In_to_set in Ht; eauto|]. apply nmapM_elems in E2. clear E1. induction E2 as [|[r0 s0] y l nx E E2 IH]; [destruct Hi|]. destruct Hi as [->|Hi]; auto. simpl in E.
    destruct (nmapM (fun p => n_of_opt (f p)) s0) as [v| |] eqn:Ev; simpl in E; try discriminate. injection E as -> <-. rewrite In_to_set in Hq. eauto.
  Qed.
  Lemma at_app_r vec news i : at_ (vec ++ news) (length vec + i) = at_ news i.
  Proof. unfold at_. rewrite app_nth2 by lia. f_equal. lia. Qed.
  Lemma at_nth vec i a : nth_error vec i = Some a -> at_ vec i = a. Proof. intros H. unfold at_. apply nth_error_nth. auto. Qed.
  Lemma nth_at vec i : i < length vec -> nth_error vec i = Some (at_ vec i). Proof. intros H. unfold at_. apply nth_error_nth'. auto. Qed.

  Lemma x_loop_ok ps : forall vec nodes begin beps ends m, held_n vec nodes begin beps m -> (forall q, In q ends -> q < length nodes) ->
    match tnfa_loop ps nodes beps ends with
    | NOk (nodes2, beps2, ends2) => exists vec2 m2, x_loop ev ps vec begin (map (at_ vec) ends) m = XOk (vec2, map (at_ vec2) ends2) m2 /\ held_n vec2 nodes2 begin beps2 m2 /\ forall q, In q ends2 -> q < length nodes2
    | NErr e => exists m2, x_loop ev ps vec begin (map (at_ vec) ends) m = XErr e m2 /\ bx_nfa m2 = [] /\ bx_dfa m2 = []
    | NPanic => True
    end.
  Proof.
    induction ps as [|p ps IH]; intros vec nodes begin beps ends m H He; cbn [tnfa_loop x_loop]; [exists vec, m; auto|].
    destruct (nfa_of p []) as [[h n]|er|]; cbn [nbind]; auto.
    2: { destruct (free_n_all (vec ++ [begin]) m (hn_dup _ _ _ _ _ H)) as (m2 & A & B & C); [intros a Ha; eapply held_live; eauto|]. exists m2. rewrite (xbind_ok _ _ _ _ _ A). split; [reflexivity|]. split; [|rewrite B; apply H].
         apply aget_empty. intros a. rewrite C. destruct (mem a (vec ++ [begin])) eqn:E; auto. destruct (aget Nat.eqb a (bx_nfa m)) eqn:E2; auto. exfalso. apply mem_nIn in E. apply E, (hn_dom _ _ _ _ _ H). congruence. }
    destruct (embed h n (length nodes)) as [[[news b] e]|er|] eqn:Ee; cbn [nbind]; auto; [|exfalso; eapply embed_ne; eauto].
    pose (f := fun p => option_map (fun i => length nodes + i) (pos_of (nfa_nodes n) p)). change (embed h n (length nodes)) with (ndo e <- n_of_opt (f (nfa_end n)); ndo b <- n_of_opt (f (nfa_begin n)); ndo olds <- nmapM (fun p => n_of_opt (nth_error h p)) (nfa_nodes n); ndo news <- nmapM (copy_node f) olds; NOk (news, b, e)) in Ee.
    destruct (f (nfa_end n)) as [e0|] eqn:E1; simpl in Ee; [|discriminate]. destruct (f (nfa_begin n)) as [b0|] eqn:E2; simpl in Ee; [|discriminate].
    destruct (nmapM (fun p => n_of_opt (nth_error h p)) (nfa_nodes n)) as [olds| |] eqn:E3; simpl in Ee; try discriminate. destruct (nmapM (copy_node f) olds) as [nws| |] eqn:E4; simpl in Ee; try discriminate. injection Ee as -> -> ->.
    apply nmapM_elems in E3. apply nmapM_elems in E4.
    destruct (new_n_all (nfa_nodes n) m) as (addrs & m1 & A1 & A2 & A3 & A4 & A5 & A6). rewrite (xbind_ok _ _ _ _ _ A1). cbv zeta.
    set (F := fun q => match pos_of (nfa_nodes n) q with Some i => nth_error (vec ++ addrs) (length vec + i) | None => None end).
    pose proof (hn_len _ _ _ _ _ H) as HL. set (vec2 := vec ++ addrs) in *.
    assert (Hf : forall p j, f p = Some j -> F p = Some (at_ vec2 j) /\ length vec <= j < length vec2).
    { intros q j Ej. unfold f, F in *. destruct (pos_of (nfa_nodes n) q) as [i|] eqn:Ei; [|discriminate]. simpl in Ej. injection Ej as <-. apply (index_of_Some _ Nat.eqb_eq) in Ei. assert (Hi : i < length (nfa_nodes n)) by (apply nth_error_Some; congruence).
      rewrite <- HL. assert (Hl2 : length vec + i < length vec2) by (unfold vec2; rewrite app_length; lia). rewrite (nth_at vec2) by auto. split; auto. lia. }
    destruct (Hf _ _ E1) as [F1 L1]. destruct (Hf _ _ E2) as [F2 L2]. rewrite (xopt_ok (F (nfa_end n)) _ _ _ F1), (xopt_ok (F (nfa_begin n)) _ _ _ F2).
    assert (Hlen2 : length vec2 = length (nodes ++ news)) by (unfold vec2; rewrite !app_length, A2, HL; pose proof (Forall2_len _ _ _ E3); pose proof (Forall2_len _ _ _ E4); lia).
    assert (Hlive : forall a, In a (vec ++ [begin]) -> ~ In a addrs) by (intros a Ha C; apply (A4 a C), used_n; eapply held_live; eauto).
    assert (Hold : forall a, In a (vec ++ [begin]) -> aget Nat.eqb a (bx_nfa m1) = aget Nat.eqb a (bx_nfa m)) by (intros a Ha; rewrite A6, (proj2 (mem_nIn a addrs) (Hlive a Ha)); reflexivity).
    assert (Hbg : aget Nat.eqb begin (bx_nfa m1) = Some (mk_nnode (img_set vec beps) [])) by (rewrite Hold by (apply in_or_app; simpl; auto); apply H).
    set (m1' := mk_boxes (aset Nat.eqb begin (mk_nnode (ins (at_ vec2 b) (img_set vec beps)) []) (bx_nfa m1)) (bx_dfa m1) (bx_clock m1)).
    assert (G1 : forall a, aget Nat.eqb a (bx_nfa m1') = if Nat.eqb a begin then Some (mk_nnode (ins (at_ vec2 b) (img_set vec beps)) []) else aget Nat.eqb a (bx_nfa m1)) by (intros a; unfold m1'; cbn [bx_nfa]; apply aget_aset, Nat.eqb_eq).
    rewrite (xbind_ok _ _ m1 tt m1') by (unfold write_n; rewrite Hbg; reflexivity).
    assert (Hnb : ~ In begin addrs) by (apply Hlive, in_or_app; simpl; auto).
    destruct (fill_all h F addrs (nfa_nodes n) olds (map (img vec2) news) m1') as (m2 & B1 & B2 & B3 & B4); auto.
    { assert (E3' : Forall2 (fun p o => nth_error h p = Some o) (nfa_nodes n) olds) by (clear - E3; induction E3 as [|x y l l' Hx]; constructor; auto; destruct (nth_error h x); simpl in Hx; congruence). exact E3'. }
    { clear - E4 Hf. induction E4 as [|x y l l' Hx]; constructor; auto. apply (copy_img vec2 f); auto. intros p j Ej. apply Hf. auto. }
    { intros a Ha. rewrite G1. destruct (Nat.eqb a begin); [discriminate|]. rewrite A6, (proj2 (mem_In a addrs) Ha). discriminate. }
    change (xiter (fun x : nat * nat => _) (combine addrs (nfa_nodes n))) with (xiter (fill h F) (combine addrs (nfa_nodes n))). rewrite (xbind_ok _ _ _ _ _ B1).
    assert (Hpre : pre vec vec2) by (exists addrs; reflexivity).
    assert (Hends : map (at_ vec) ends ++ [at_ vec2 e] = map (at_ vec2) (ends ++ [e])) by (rewrite map_app, (pre_map vec vec2 ends Hpre) by (intros i Hi; rewrite HL; auto); reflexivity).
    rewrite Hends.
    assert (Hnot : forall a, In a vec -> a <> begin). { intros a Ha ->. pose proof (hn_dup _ _ _ _ _ H) as D. apply NoDup_remove_2 in D. rewrite app_nil_r in D. auto. }
    apply IH.
    - split.
      + exact Hlen2.
      + unfold vec2. rewrite <- app_assoc. apply (Permutation_NoDup (l := addrs ++ vec ++ [begin])); [rewrite !app_assoc; apply Permutation_app_tail, Permutation_app_comm|]. apply NoDup_app'; auto; [apply H|]. intros a Ha C. apply (Hlive a); auto.
      + intros i nd Ei. destruct (Nat.lt_ge_cases i (length nodes)) as [Hi|Hi].
        * rewrite nth_error_app1 in Ei by auto. rewrite (pre_at vec vec2) by (auto; lia). assert (Hin : In (at_ vec i) vec) by (apply nth_In; lia). rewrite B4 by (apply Hlive, in_or_app; auto). rewrite G1. destruct (Nat.eqb_spec (at_ vec i) begin) as [C|_]; [exfalso; apply (Hnot _ Hin C)|]. rewrite Hold by (apply in_or_app; auto). rewrite (hn_cell _ _ _ _ _ H i nd Ei). f_equal. symmetry. apply pre_img; auto. intros q Hq. rewrite HL. eapply hn_to; eauto.
        * rewrite nth_error_app2 in Ei by auto. assert (Eat : at_ vec2 i = at_ addrs (i - length nodes)) by (rewrite <- (at_app_r vec addrs); f_equal; lia). rewrite Eat. assert (Hi2 : i - length nodes < length addrs) by (apply (Nat.lt_le_trans _ (length news)); [apply nth_error_Some; congruence|pose proof (Forall2_len _ _ _ E3); pose proof (Forall2_len _ _ _ E4); lia]).
          rewrite (B3 _ _ (nth_at addrs _ Hi2)), nth_error_map, Ei. reflexivity.
      + intros i nd q Ei Hq. rewrite <- Hlen2. destruct (Nat.lt_ge_cases i (length nodes)) as [Hi|Hi].
        * rewrite nth_error_app1 in Ei by auto. apply (Nat.lt_le_trans _ (length nodes)); [eapply hn_to; eauto|]. rewrite <- HL. unfold vec2. rewrite app_length. lia.
        * rewrite nth_error_app2 in Ei by auto. apply nth_error_In in Ei. destruct (Forall2_In_r _ _ _ _ E4 Ei) as (o & _ & Eo). destruct (copy_target _ _ _ _ Eo Hq) as [p0 Ep]. apply Hf in Ep. lia.
      + rewrite B4 by auto. rewrite G1, Nat.eqb_refl. f_equal. f_equal. unfold img_set. apply sorted_ext; [apply sorted_ins, sorted_to_set|apply sorted_to_set|]. intros a. rewrite In_ins, !In_to_set, !in_map_iff. split.
        * intros [->|(i & <- & Hi)]; [exists b; split; auto; apply In_ins; auto|exists i; split; [apply pre_at; auto; rewrite HL; eapply hn_beps; eauto|apply In_ins; auto]].
        * intros (i & <- & Hi). apply In_ins in Hi as [->|Hi]; auto. right. exists i. split; auto. symmetry. apply pre_at; auto. rewrite HL. eapply hn_beps; eauto.
      + intros q Hq. rewrite <- Hlen2. apply In_ins in Hq as [->|Hq]; [lia|]. apply (Nat.lt_le_trans _ (length nodes)); [eapply hn_beps; eauto|]. rewrite <- HL. unfold vec2. rewrite app_length. lia.
      + intros a Ha. unfold vec2. destruct (in_dec Nat.eq_dec a addrs) as [Hi|Hi]; [apply in_or_app; left; apply in_or_app; auto|]. rewrite B4, G1 in Ha by auto. destruct (Nat.eqb_spec a begin) as [Eab|Nab]; [apply in_or_app; right; left; symmetry; exact Eab|]. rewrite A6, (proj2 (mem_nIn a addrs) Hi) in Ha. apply (hn_dom _ _ _ _ _ H) in Ha. apply in_app_or in Ha as [Ha|Ha]; apply in_or_app; auto. left. apply in_or_app. auto.
      + rewrite B2. unfold m1'. cbn [bx_dfa]. rewrite A5. apply H.
      + intros i nd Ei. destruct (Nat.lt_ge_cases i (length nodes)) as [Hi|Hi]; [rewrite nth_error_app1 in Ei by auto; eapply hn_sets; eauto|]. rewrite nth_error_app2 in Ei by auto. apply nth_error_In in Ei. destruct (Forall2_In_r _ _ _ _ E4 Ei) as (o & _ & Eo). eapply copy_sorted; eauto.
      + apply sorted_ins. apply H.
    - intros q Hq. rewrite <- Hlen2. apply in_app_or in Hq as [Hq|[<-|[]]]; [|lia]. apply (Nat.lt_le_trans _ (length nodes)); [apply He; auto|]. rewrite <- HL. unfold vec2. rewrite app_length. lia.
  Qed.

  (** The boxes [vec] hold the automaton [t] *)
  Record nrep (vec : list nat) (t : tnfa) (cells : list (nat * nnode)) : Prop := {
    nr_len : length vec = length (tn_nodes t);
    nr_dup : NoDup vec;
    nr_cell : forall i nd, nth_error (tn_nodes t) i = Some nd -> aget Nat.eqb (at_ vec i) cells = Some (img vec nd);
    nr_to : forall i nd q, nth_error (tn_nodes t) i = Some nd -> target nd q -> q < length (tn_nodes t);
    nr_sets : forall i nd, nth_error (tn_nodes t) i = Some nd -> sets_sorted nd;
    nr_ends : forall q, In q (tn_end t) -> q < length (tn_nodes t);
    nr_dom : forall a, aget Nat.eqb a cells <> None -> In a vec
  }.
  Theorem x_tnfa_ok ps clock :
    match tnfa_of ps with
    | NOk t => exists b m, x_tnfa_of ev ps (no_boxes clock) = XOk b m /\ nrep (bn_vec b) t (bx_nfa m) /\ bx_dfa m = [] /\ bn_begin b = at_ (bn_vec b) (tn_begin t) /\ bn_ends b = map (at_ (bn_vec b)) (tn_end t)
    | NErr e => exists m, x_tnfa_of ev ps (no_boxes clock) = XErr e m /\ bx_nfa m = [] /\ bx_dfa m = []
    | NPanic => True
    end.
  Proof.
    unfold tnfa_of, x_tnfa_of. set (begin := ev_alloc ev clock []). set (m0 := mk_boxes [(begin, nnode_default)] [] (S clock)).
    assert (H0 : held_n [] [] begin [] m0).
    { split.
      - reflexivity.
      - repeat constructor. intros [].
      - intros [|i] nd; discriminate.
      - intros [|i] nd q; discriminate.
      - simpl. rewrite Nat.eqb_refl. reflexivity.
      - intros q [].
      - intros a. simpl. destruct (Nat.eqb_spec a begin); [auto|congruence].
      - reflexivity.
      - intros [|i] nd; discriminate.
      - constructor. }
    rewrite (xbind_ok _ _ (no_boxes clock) begin m0) by reflexivity. pose proof (x_loop_ok ps [] [] begin [] [] m0 H0 (fun q (F : In q []) => match F with end)) as G.
    destruct (tnfa_loop ps [] [] []) as [[[nodes beps] ends]|e|]; simpl; auto.
    - destruct G as (vec & m & E & H & He). simpl in E. rewrite (xbind_ok _ _ _ _ _ E). eexists. exists m. split; [reflexivity|]. cbn [bn_vec bn_begin bn_ends]. pose proof (hn_len _ _ _ _ _ H) as HL. assert (Hpre : pre vec (vec ++ [begin])) by (exists [begin]; reflexivity).
      split; [|split; [apply H|split]].
      + split; cbn [tn_nodes tn_end].
        * rewrite !app_length. simpl. lia.
        * apply H.
        * intros i nd Ei. destruct (Nat.lt_ge_cases i (length nodes)) as [Hi|Hi].
          -- rewrite nth_error_app1 in Ei by auto. rewrite (pre_at vec) by (auto; lia). rewrite (hn_cell _ _ _ _ _ H i nd Ei). f_equal. symmetry. apply pre_img; auto. intros q Hq. rewrite HL. eapply hn_to; eauto.
          -- rewrite nth_error_app2 in Ei by auto. destruct (i - length nodes) as [|k] eqn:Ek; [|destruct k; discriminate]. simpl in Ei. injection Ei as <-. replace i with (length vec + 0) by lia. rewrite at_app_r. unfold at_ at 1. simpl. rewrite (hn_begin _ _ _ _ _ H). unfold img. simpl. f_equal. f_equal. unfold img_set. f_equal. symmetry. apply pre_map; auto. intros q Hq. rewrite HL. eapply hn_beps; eauto.
        * intros i nd q Ei Hq. rewrite app_length. simpl. destruct (Nat.lt_ge_cases i (length nodes)) as [Hi|Hi].
          -- rewrite nth_error_app1 in Ei by auto. pose proof (hn_to _ _ _ _ _ H i nd q Ei Hq). lia.
          -- rewrite nth_error_app2 in Ei by auto. destruct (i - length nodes) as [|k]; [|destruct k; discriminate]. simpl in Ei. injection Ei as <-. destruct Hq as [Hq|(r & s & [] & _)]. simpl in Hq. pose proof (hn_beps _ _ _ _ _ H q Hq). lia.
        * intros i nd Ei. destruct (Nat.lt_ge_cases i (length nodes)) as [Hi|Hi].
          -- rewrite nth_error_app1 in Ei by auto. eapply hn_sets; eauto.
          -- rewrite nth_error_app2 in Ei by auto. destruct (i - length nodes) as [|k]; [|destruct k; discriminate]. simpl in Ei. injection Ei as <-. split; simpl; [apply H|intros r s []].
        * intros q Hq. rewrite app_length. simpl. specialize (He q Hq). lia.
        * apply H.
      + replace (length nodes) with (length vec + 0) by lia. rewrite at_app_r. reflexivity.
      + symmetry. apply pre_map; auto. intros q Hq. rewrite HL. auto.
    - destruct G as (m & E & A & B). simpl in E. exists m. unfold xbind. rewrite E. auto.
  Qed.
End Nfa.
