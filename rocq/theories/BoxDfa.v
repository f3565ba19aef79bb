(** The boxes of the TokenizerDFA: the subset construction by pointers (for C85). *)
From Coq Require Import Permutation.
From Verif Require Import Lib Hir NfaPath NfaModel NfaProofs MemModel MemProofs DfaModel DfaEdges DfaTop MinModel TokMore PlaceSpec PlaceProofs PlaceTop BoxModel BoxSpec BoxNfa.

(** *** Addresses for all positions *)
Definition placef (vec : list nat) (i : nat) : nat := nth i vec (S (list_sum vec) + i).
Lemma sum_ge a vec : In a vec -> a <= list_sum vec.
Proof. induction vec as [|x vec IH]; simpl; [tauto|]. intros [->|H]; [lia|]. specialize (IH H). lia. Qed.
Lemma placef_at vec i : i < length vec -> placef vec i = at_ vec i.
Proof. intros H. unfold placef, at_. apply nth_indep. auto. Qed.
Lemma placef_nth vec i : i < length vec -> nth_error vec i = Some (placef vec i).
Proof. intros H. unfold placef. apply nth_error_nth'. auto. Qed.
Lemma placef_In vec i : i < length vec -> In (placef vec i) vec. Proof. intros H. apply nth_In. auto. Qed.
Lemma placef_inj vec : NoDup vec -> forall x y, placef vec x = placef vec y -> x = y.
Proof.
  intros Hn x y. destruct (Nat.lt_ge_cases x (length vec)) as [Hx|Hx]; destruct (Nat.lt_ge_cases y (length vec)) as [Hy|Hy]; intros E.
  - pose proof (placef_nth vec x Hx) as A. pose proof (placef_nth vec y Hy) as B. rewrite <- E in B. apply (proj1 (NoDup_nth_error vec) Hn); auto. congruence.
  - pose proof (sum_ge _ _ (placef_In vec x Hx)). unfold placef in E at 2. rewrite nth_overflow in E by auto. lia.
  - pose proof (sum_ge _ _ (placef_In vec y Hy)). unfold placef in E at 1. rewrite nth_overflow in E by auto. lia.
  - unfold placef in E. rewrite !nth_overflow in E by auto. lia.
Qed.
Lemma placef_of vec a : In a vec -> exists i, i < length vec /\ a = placef vec i.
Proof. intros H. destruct (In_nth vec a (S (list_sum vec)) H) as (i & Hi & E). exists i. split; auto. unfold placef. rewrite <- E. apply nth_indep. auto. Qed.
Lemma placef_pre vec a i : i < length vec -> placef (vec ++ [a]) i = placef vec i.
Proof. intros H. unfold placef. rewrite app_nth1 by auto. apply nth_indep. auto. Qed.
Lemma placef_last vec a : placef (vec ++ [a]) (length vec) = a.
Proof. unfold placef. rewrite app_nth2, Nat.sub_diag by auto. reflexivity. Qed.

(** *** The automaton in the memory *)
Section Spread.
  Variables (ev : box_env) (Hev : env_fine ev) (vec : list nat) (t : tnfa) (cells : list (nat * nnode)).
  Hypothesis H : nrep vec t cells.
  Hypothesis Hw : nfa_wf t.
  Let f := placef vec.
  Let deref := fun a => aget Nat.eqb a cells.
  Definition lay (a : nat) (nd : nnode) : nnode := mk_nnode (ev_edges ev a None (n_eps nd)) (map (fun x => (fst x, ev_edges ev a (Some (fst x)) (snd x))) (n_next nd)).
  Definition spread : tnfa := mk_tnfa (map (fun a => match aget Nat.eqb a cells with Some nd => lay a nd | None => nnode_default end) (seq 0 (S (list_sum vec)))) (f (tn_begin t)) (map f (tn_end t)).
  Let h' := tn_nodes spread.
  Lemma f_inj x y : f x = f y -> x = y. Proof. apply placef_inj, (nr_dup _ _ _ H). Qed.
  Lemma spread_at a : In a vec -> nth_error h' a = Some (match aget Nat.eqb a cells with Some nd => lay a nd | None => nnode_default end).
  Proof.
    intros Ha. unfold h', spread. cbn [tn_nodes]. rewrite nth_error_map. apply sum_ge in Ha. assert (E : nth_error (seq 0 (S (list_sum vec))) a = Some a).
    { rewrite (nth_error_nth' _ 0) by (rewrite seq_length; lia). rewrite seq_nth by lia. reflexivity. }
    rewrite E. reflexivity.
  Qed.
  Lemma set_ren s : (forall q, In q s -> q < length vec) -> img_set vec s = ren f s.
  Proof. intros Hs. unfold img_set, ren. f_equal. apply map_ext_in. intros q Hq. symmetry. apply placef_at. auto. Qed.
  Lemma cell_at p nd : nth_error (tn_nodes t) p = Some nd -> aget Nat.eqb (f p) cells = Some (img vec nd).
  Proof. intros E. unfold f. rewrite placef_at; [eapply nr_cell; eauto|]. rewrite (nr_len _ _ _ H). apply nth_error_Some. congruence. Qed.
  Lemma live_in p : p < length (tn_nodes t) -> In (f p) vec. Proof. intros Hp. apply placef_In. rewrite (nr_len _ _ _ H). auto. Qed.
  Lemma spread_placed : placed f t spread.
  Proof.
    split; try reflexivity; [exact f_inj|]. intros p nd E. assert (Hp : p < length (tn_nodes t)) by (apply nth_error_Some; congruence). exists (lay (f p) (img vec nd)). split; [fold h'; rewrite spread_at by (apply live_in; auto); rewrite (cell_at _ _ E); reflexivity|].
    assert (G : forall s r, sorted s -> (forall q, In q s -> q < length vec) -> Permutation (map f s) (ev_edges ev (f p) r (img_set vec s))).
    { intros s r Hs Hb. rewrite (set_ren s Hb). apply Permutation_sym. eapply Permutation_trans; [apply ef_edges, Hev|]. apply perm_ren; auto. exact f_inj. }
    pose proof (nr_sets _ _ _ H _ _ E) as [S1 S2]. assert (Hb : forall q, target nd q -> q < length vec) by (intros q Hq; rewrite (nr_len _ _ _ H); eapply nr_to; eauto).
    split; [apply G; auto; intros q Hq; apply Hb; left; auto|]. unfold lay, img. cbn [n_next].
    assert (K : forall l, (forall x, In x l -> In x (n_next nd)) -> Forall2 (fun x x' : crange * list nat => fst x = fst x' /\ Permutation (map f (snd x)) (snd x')) l (map (fun x => (fst x, ev_edges ev (f p) (Some (fst x)) (snd x))) (map (fun x => (fst x, img_set vec (snd x))) l))).
    { induction l as [|[r s] l IH]; intros Hl; simpl; constructor; [|apply IH; intros; apply Hl; simpl; auto]. cbn [fst snd]. split; auto. apply G; [eapply S2, Hl; left; reflexivity|]. intros q Hq. apply Hb. right. exists r, s. split; auto. apply Hl. left. reflexivity. }
    apply K. auto.
  Qed.
  Lemma cell_of a nd' : aget Nat.eqb a cells = Some nd' -> exists p nd, a = f p /\ nth_error (tn_nodes t) p = Some nd /\ nd' = img vec nd.
  Proof.
    intros E. assert (Ha : In a vec) by (apply (nr_dom _ _ _ H); congruence). destruct (placef_of _ _ Ha) as (p & Hp & ->). rewrite (nr_len _ _ _ H) in Hp. apply nth_error_Some in Hp. destruct (nth_error (tn_nodes t) p) as [nd|] eqn:En; [|congruence].
    exists p, nd. split; auto. split; auto. pose proof (cell_at _ _ En) as C. unfold f in C. congruence.
  Qed.
  Lemma spread_wf : nfa_wf spread.
  Proof.
    split.
    - unfold okh. apply Forall_forall. intros nd' Hi. unfold spread in Hi. cbn [tn_nodes] in Hi. apply in_map_iff in Hi as (a & <- & _). destruct (aget Nat.eqb a cells) as [nd0|] eqn:E; [|intros r s []].
      destruct (cell_of _ _ E) as (p & nd & -> & En & ->). pose proof (nw_ok _ Hw) as Hok. unfold okh in Hok. rewrite Forall_forall in Hok. specialize (Hok nd (nth_error_In _ _ En)).
      intros r s Hi. unfold lay, img in Hi. cbn [n_next] in Hi. rewrite map_map in Hi. apply in_map_iff in Hi as ([r0 s0] & Ei & Hi). cbn [fst snd] in Ei. injection Ei as -> <-. destruct (Hok _ _ Hi) as [A B]. split; auto.
      intros C. pose proof (ef_edges _ Hev (f p) (Some r) (img_set vec s0)) as Hp. rewrite C in Hp. apply Permutation_nil in Hp. destruct s0 as [|q s0]; [congruence|]. assert (X : In (at_ vec q) (img_set vec (q :: s0))) by (apply In_to_set; simpl; auto). rewrite Hp in X. destruct X.
    - unfold spread. cbn [tn_nodes tn_begin]. rewrite map_length, seq_length. pose proof (sum_ge _ _ (live_in _ (nw_begin _ Hw))). lia.
    - intros a l b Ha (nd' & En' & He). destruct (aget Nat.eqb a cells) as [nd0|] eqn:E.
      + destruct (cell_of _ _ E) as (p & nd & -> & En & ->). assert (Hp : p < length (tn_nodes t)) by (apply nth_error_Some; congruence).
        assert (K : hedge (tn_nodes spread) (f p) l b) by (exists nd'; auto). apply (hedge_ren f t spread spread_placed) in K as (x' & -> & K); auto. pose proof (nw_closed _ Hw p l x' Hp K) as Hx. pose proof (sum_ge _ _ (live_in _ Hx)). unfold spread. cbn [tn_nodes]. rewrite map_length, seq_length. lia.
      + exfalso. unfold spread in En'. cbn [tn_nodes] in En'. rewrite nth_error_map in En'. destruct (nth_error (seq 0 (S (list_sum vec))) a) as [a0|] eqn:Es; [|discriminate].
        assert (a0 = a). { assert (Hl : a < length (seq 0 (S (list_sum vec)))) by (apply nth_error_Some; congruence). rewrite (nth_error_nth' _ 0 Hl) in Es. rewrite seq_length in Hl. rewrite seq_nth in Es by auto. simpl in Es. congruence. }
        subst a0. simpl in En'. rewrite E in En'. injection En' as <-. destruct l as [c|]; simpl in He; [destruct He as (r & s & [] & _)|destruct He].
  Qed.

  (** *** epsilon_recursive and the collected edges *)
  Lemma eps_in a nd : In a vec -> aget Nat.eqb a cells = Some nd -> forall q, In q (n_eps (lay a nd)) -> In q vec.
  Proof.
    intros Ha E q Hq. destruct (cell_of _ _ E) as (p & nd0 & -> & En & ->). simpl in Hq. apply (Permutation_in _ (ef_edges _ Hev _ _ _)) in Hq. apply In_to_set, in_map_iff in Hq as (x & <- & Hx). apply nth_In. rewrite (nr_len _ _ _ H). eapply nr_to; eauto. left. auto.
  Qed.
  Lemma cell_in a : In a vec -> exists nd, aget Nat.eqb a cells = Some nd.
  Proof. intros Ha. destruct (placef_of _ _ Ha) as (p & Hp & ->). rewrite (nr_len _ _ _ H) in Hp. apply nth_error_Some in Hp. destruct (nth_error (tn_nodes t) p) as [nd|] eqn:En; [|congruence]. eexists. apply (cell_at _ _ En). Qed.
  Lemma eps_step_at s : (forall a, In a (fst s) -> In a vec) -> eps_at ev deref s = eps_step h' s /\ forall s2, eps_at ev deref s = inl s2 -> forall a, In a (fst s2) -> In a vec.
  Proof.
    intros Hs. unfold eps_at, eps_step. destruct s as [[|a q] done]; cbn [fst snd] in *; [split; auto; discriminate|]. destruct (mem a done); [split; auto; intros s2 E b Hb; injection E as <-; apply Hs; simpl in *; auto|].
    assert (Ha : In a vec) by (apply Hs; left; auto). destruct (cell_in a Ha) as [nd E]. rewrite (spread_at a Ha). unfold deref. rewrite E. split; [reflexivity|]. intros s2 E2 b Hb. injection E2 as <-. cbn [fst] in Hb. apply in_app_or in Hb as [Hb|Hb]; [apply Hs; simpl; auto|]. eapply eps_in; eauto.
  Qed.
  Lemma eps_loop_at fuel : forall s, (forall a, In a (fst s) -> In a vec) -> loop (eps_at ev deref) fuel s = loop (eps_step h') fuel s.
  Proof.
    induction fuel as [|fuel IH]; intros s Hs; simpl; auto. destruct (eps_step_at s Hs) as [E K]. rewrite <- E. destruct (eps_at ev deref s) as [s2|r] eqn:Es; auto. apply IH. apply (K s2). reflexivity.
  Qed.
  Lemma eps_rec_ok fuel a : eps_fuel h' <= fuel -> In a vec -> eps_rec_at ev deref fuel a = eps_rec h' a.
  Proof.
    intros Hf Ha. unfold eps_rec_at. rewrite eps_loop_at by (intros b [<-|[]]; auto). destruct (placef_of _ _ Ha) as (p & Hp & ->). rewrite (nr_len _ _ _ H) in Hp.
    destruct (cl_ok h' (nw_closed _ spread_wf) (f p) (place_lt f t spread spread_placed p Hp)) as (E & _). unfold f in E. unfold eps_rec in E |- *. rewrite E. eapply loop_mono; [exact E|discriminate|exact Hf].
  Qed.
  Lemma mapM_ext {A B} (g1 g2 : A -> res B) l : (forall x, In x l -> g1 x = g2 x) -> mapM g1 l = mapM g2 l.
  Proof. induction l as [|x l IH]; intros Hx; simpl; auto. rewrite Hx by (left; auto). rewrite IH by (intros; apply Hx; right; auto). reflexivity. Qed.
  Lemma collect_node_ok fuel m a : eps_fuel h' <= fuel -> In a vec -> collect_node_at ev deref fuel m a = collect_node h' m a.
  Proof.
    intros Hf Ha. unfold collect_node_at, collect_node. rewrite (spread_at a Ha). destruct (cell_in a Ha) as [nd E]. unfold deref at 1. rewrite E. simpl.
    assert (Hb : forall r s, In (r, s) (n_next nd) -> forall q, In q s -> In q vec).
    { destruct (cell_of _ _ E) as (p & nd0 & _ & En & ->). intros r s Hi q Hq. unfold img in Hi. cbn [n_next] in Hi. apply in_map_iff in Hi as ([r0 s0] & Ei & Hi). cbn [fst snd] in Ei. injection Ei as -> <-. apply In_to_set, in_map_iff in Hq as (x & <- & Hx). apply nth_In. rewrite (nr_len _ _ _ H). eapply nr_to; eauto. right. eauto. }
    revert m Hb. induction (n_next nd) as [|[r s] l IH]; intros m Hb; cbn [map foldM]; auto. cbn [fst snd].
    assert (E1 : collect_edge_at ev deref fuel a m (r, s) = collect_edge h' m (r, ev_edges ev a (Some r) s)).
    { unfold collect_edge_at, collect_edge. cbn [fst snd]. rewrite (mapM_ext (eps_rec_at ev deref fuel) (eps_rec h')); auto. intros x Hx. apply eps_rec_ok; auto. apply (Permutation_in _ (ef_edges _ Hev _ _ _)) in Hx. eapply Hb; eauto. left. reflexivity. }
    rewrite E1. destruct (collect_edge h' m (r, ev_edges ev a (Some r) s)); cbn [bind]; auto. apply IH. intros r0 s0 Hi. apply (Hb r0). right. auto.
  Qed.
  Lemma collect_ok fuel cur m : eps_fuel h' <= fuel -> inb (tn_nodes t) cur -> collect (tn_nodes t) cur = Ok m -> collect_at ev deref fuel (ren f cur) = Ok (renB f m).
  Proof.
    intros Hf Hc E. rewrite <- (collect_ren f t spread spread_placed Hw spread_wf cur m Hc E). fold h'. unfold collect_at, collect. generalize (@nil (N * emap)).
    assert (Hr : forall a, In a (ren f cur) -> In a vec) by (intros a Ha; apply In_ren in Ha as (x & -> & Hx); apply live_in; apply Hc; auto).
    induction (ren f cur) as [|a l IH]; intros m0; cbn [foldM]; auto. rewrite collect_node_ok by (auto; apply Hr; left; auto). destruct (collect_node h' m0 a); cbn [bind]; auto. apply IH. intros; apply Hr; right; auto.
  Qed.
End Spread.

(** *** The work list *)
Definition imgd (dvec : list nat) (nd : list (crange * nat)) : list (crange * nat) := map (fun e => (fst e, placef dvec (snd e))) nd.
Lemma imgd_pre dvec a nd : (forall r j, In (r, j) nd -> j < length dvec) -> imgd (dvec ++ [a]) nd = imgd dvec nd.
Proof. intros Hn. unfold imgd. apply map_ext_in. intros [r j] Hi. cbn [fst snd]. rewrite placef_pre by eauto. reflexivity. Qed.
Lemma imgd_rset dvec r i nd : imgd dvec (rset r i nd) = rset r (placef dvec i) (imgd dvec nd).
Proof. exact (rset_map (placef dvec) r i nd). Qed.
Record srep (f : nat -> nat) (cells : list (nat * nnode)) (st : dstate) (bst : bstate) (m : boxes) : Prop := {
  sr_ref : bs_ref bst = renT f (ds_ref st);
  sr_q : bs_q bst = map (ren f) (ds_q st);
  sr_done : bs_done bst = ds_done st;
  sr_len : length (bs_vec bst) = length (ds_nodes st);
  sr_dup : NoDup (bs_vec bst);
  sr_cell : forall i nd, nth_error (ds_nodes st) i = Some nd -> aget Nat.eqb (placef (bs_vec bst) i) (bx_dfa m) = Some (imgd (bs_vec bst) nd);
  sr_to : forall i nd r j, nth_error (ds_nodes st) i = Some nd -> In (r, j) nd -> j < length (ds_nodes st);
  sr_refs : forall s i, In (s, i) (ds_ref st) -> i < length (ds_nodes st);
  sr_dom : forall a, aget Nat.eqb a (bx_dfa m) <> None -> In a (bs_vec bst);
  sr_nfa : bx_nfa m = cells
}.
Lemma ref_In refs s i : ref_of refs s = Some i -> exists s', In (s', i) refs.
Proof. unfold ref_of. induction refs as [|[k v] refs IH]; simpl; [discriminate|]. destruct (list_eqb s k); intros E; [injection E as ->; eauto|]. destruct (IH E) as [s' Hs]. eauto. Qed.
Lemma ref_set_In (refs : list (list nat * nat)) (s : list nat) (i : nat) s' j : In (s', j) (aset list_eqb s i refs) -> j = i \/ In (s', j) refs.
Proof. induction refs as [|[k v] refs IH]; simpl; [intros [E|[]]; left; congruence|]. destruct (list_eqb s k); simpl; intros [E|E]; try (left; congruence); auto. destruct (IH E); auto. Qed.
Section Work.
  Variables (ev : box_env) (Hev : env_fine ev) (vec : list nat) (t : tnfa) (cells : list (nat * nnode)).
  Hypothesis H : nrep vec t cells.
  Hypothesis Hw : nfa_wf t.
  Let f := placef vec.
  Let h := tn_nodes t.
  Let inj := f_inj vec t cells H.
  Variable fuel : nat.
  Hypothesis Hfuel : eps_fuel (tn_nodes (spread ev vec t cells)) <= fuel.

  Lemma x_target_ok cur st x st2 bst m : st_ok t st -> inb h cur -> inb h (snd x) -> add_target cur st x = Ok st2 -> srep f cells st bst m ->
    exists bst2 m2, x_target ev (ren f cur) bst (fst x, ren f (snd x)) m = XOk bst2 m2 /\ srep f cells st2 bst2 m2 /\ st_ok t st2.
  Proof.
    intros Hs Hc Hx E R. destruct (target_ren f t (spread ev vec t cells) (spread_placed ev Hev vec t cells H) cur st x st2 Hs Hc Hx E) as [_ Hs2].
    destruct x as [r s]. cbn [fst snd] in *. unfold add_target in E. unfold x_target. rewrite (sr_ref _ _ _ _ _ R), (ref_ren f inj) by (try apply Hs; apply Hx).
    assert (Step : exists nodes refs i vec2 m1, (match ref_of (ds_ref st) s with Some i => (ds_nodes st, ds_ref st, i) | None => (ds_nodes st ++ [[]], aset list_eqb s (length (ds_nodes st)) (ds_ref st), length (ds_nodes st)) end) = (nodes, refs, i) /\
      (match ref_of (ds_ref st) s with
      | Some i => xdo a <- xopt (nth_error (bs_vec bst) i); xret (bs_vec bst, renT f (ds_ref st), a)
      | None => xdo a <- new_d ev; xret (bs_vec bst ++ [a], aset list_eqb (ren f s) (length (bs_vec bst)) (renT f (ds_ref st)), a) end) m = XOk (vec2, renT f refs, placef vec2 i) m1 /\
      i < length nodes /\ keys_ok refs /\ srep f cells (mk_dstate nodes refs (ds_q st) (ds_done st)) (mk_bstate vec2 (renT f refs) (bs_q bst) (bs_done bst)) m1).
    { destruct (ref_of (ds_ref st) s) as [i|] eqn:Er.
      - destruct (ref_In _ _ _ Er) as [s' Hi]. apply (sr_refs _ _ _ _ _ R) in Hi. exists (ds_nodes st), (ds_ref st), i, (bs_vec bst), m. split; auto. split; [rewrite (xopt_ok _ _ _ _ (placef_nth (bs_vec bst) i ltac:(rewrite (sr_len _ _ _ _ _ R); auto))); reflexivity|].
        split; auto. split; [apply Hs|]. split; simpl; auto; try (apply R).
      - set (a := ev_alloc ev (bx_clock m) (used m)). set (m1 := mk_boxes (bx_nfa m) ((a, []) :: bx_dfa m) (S (bx_clock m))). pose proof (sr_len _ _ _ _ _ R) as HL.
        assert (Ha : aget Nat.eqb a (bx_dfa m) = None). { destruct (aget Nat.eqb a (bx_dfa m)) as [z|] eqn:E1; auto. exfalso. apply (new_n_fresh ev Hev m). apply used_d. fold a. rewrite E1. discriminate. }
        assert (Hin : forall i, i < length (bs_vec bst) -> placef (bs_vec bst) i <> a). { intros i Hi C. rewrite HL in Hi. apply nth_error_Some in Hi. destruct (nth_error (ds_nodes st) i) as [nd|] eqn:En; [|congruence]. pose proof (sr_cell _ _ _ _ _ R _ _ En) as K. rewrite C in K. congruence. }
        exists (ds_nodes st ++ [[]]), (aset list_eqb s (length (ds_nodes st)) (ds_ref st)), (length (ds_nodes st)), (bs_vec bst ++ [a]), m1. split; auto.
        split; [rewrite (xbind_ok _ _ m a m1) by reflexivity; rewrite <- HL, placef_last, HL, (aset_ren f inj) by (try apply Hs; apply Hx); reflexivity|].
        split; [rewrite app_length; simpl; lia|]. split; [apply keys_aset; [apply Hs|apply Hx]|]. split; cbn [bs_ref bs_vec bs_q bs_done ds_ref ds_nodes ds_q ds_done].
        + reflexivity.
        + apply R.
        + apply R.
        + rewrite !app_length. simpl. lia.
        + apply NoDup_app'; [apply R|repeat constructor; intros []|]. intros b Hb [<-|[]]. destruct (placef_of _ _ Hb) as (i & Hi & E1). apply (Hin i Hi). auto.
        + intros i nd Ei. unfold m1. cbn [bx_dfa aget]. destruct (Nat.lt_ge_cases i (length (ds_nodes st))) as [Hi|Hi].
          * rewrite nth_error_app1 in Ei by auto. rewrite placef_pre by lia. destruct (Nat.eqb_spec (placef (bs_vec bst) i) a) as [C|_]; [exfalso; apply (Hin i ltac:(lia) C)|]. rewrite (sr_cell _ _ _ _ _ R _ _ Ei). rewrite imgd_pre; auto. intros r0 j Hj. rewrite HL. eapply sr_to; eauto.
          * rewrite nth_error_app2 in Ei by auto. destruct (i - length (ds_nodes st)) as [|k] eqn:Ek; [|destruct k; discriminate]. simpl in Ei. injection Ei as <-. replace i with (length (bs_vec bst)) by lia. rewrite placef_last, Nat.eqb_refl. reflexivity.
        + intros i nd r0 j Ei Hj. rewrite app_length. simpl. destruct (Nat.lt_ge_cases i (length (ds_nodes st))) as [Hi|Hi].
          * rewrite nth_error_app1 in Ei by auto. pose proof (sr_to _ _ _ _ _ R _ _ _ _ Ei Hj). lia.
          * rewrite nth_error_app2 in Ei by auto. destruct (i - length (ds_nodes st)) as [|k]; [|destruct k; discriminate]. simpl in Ei. injection Ei as <-. destruct Hj.
        + intros s' j Hj. rewrite app_length. simpl. apply ref_set_In in Hj as [->|Hj]; [lia|]. pose proof (sr_refs _ _ _ _ _ R _ _ Hj). lia.
        + intros b Hb. unfold m1 in Hb. cbn [bx_dfa aget] in Hb. apply in_or_app. destruct (Nat.eqb_spec b a) as [Eba|_]; [right; left; auto|left; apply R; auto].
        + unfold m1. cbn [bx_nfa]. apply R. }
    destruct Step as (nodes & refs & i & vec2 & m1 & E1 & E2 & Hi & Hk & R1). rewrite E1 in E. rewrite (xbind_ok _ _ _ _ _ E2). cbn beta iota. rewrite (ref_ren f inj) by (auto; apply Hc).
    destruct (ref_of refs cur) as [c|] eqn:Ec; cbn [of_opt bind] in E; [|discriminate]. injection E as <-. rewrite (xopt_ok (Some c) c) by reflexivity.
    destruct (ref_In _ _ _ Ec) as [s' Hi']. pose proof (sr_refs _ _ _ _ _ R1 _ _ Hi') as Hcl. cbn [ds_nodes] in Hcl. pose proof (sr_len _ _ _ _ _ R1) as HL. cbn [ds_nodes bs_vec] in HL. rewrite (xopt_ok _ _ _ _ (placef_nth vec2 c ltac:(lia))).
    pose proof Hcl as Hcl'. apply nth_error_Some in Hcl'. destruct (nth_error nodes c) as [nd|] eqn:En; [|congruence]. pose proof (sr_cell _ _ _ _ _ R1 c nd En) as Cc. cbn [bs_vec] in Cc.
    eexists _, _. split; [unfold xbind at 1, write_d; rewrite Cc; reflexivity|]. split; [|exact Hs2].
    pose proof (placef_inj vec2 (sr_dup _ _ _ _ _ R1)) as inj2.
    split; cbn [bs_ref bs_vec bs_q bs_done ds_ref ds_nodes ds_q ds_done bx_dfa bx_nfa].
    - reflexivity.
    - rewrite (sr_q _ _ _ _ _ R), map_app. reflexivity.
    - apply R.
    - rewrite upd_nth_length. auto.
    - apply R1.
    - intros j nd2 Ej. rewrite nth_error_upd_nth in Ej. rewrite (aget_aset _ Nat.eqb_eq). destruct (Nat.eqb_spec c j) as [Ecj|Ncj].
      + subst j. rewrite En in Ej. simpl in Ej. injection Ej as <-. rewrite Nat.eqb_refl, imgd_rset. reflexivity.
      + destruct (Nat.eqb_spec (placef vec2 j) (placef vec2 c)) as [C|_]; [apply inj2 in C; congruence|]. apply (sr_cell _ _ _ _ _ R1). auto.
    - intros j nd2 r0 k Ej Hk'. rewrite upd_nth_length. rewrite nth_error_upd_nth in Ej. destruct (Nat.eqb_spec c j) as [Ecj|Ncj].
      + subst j. rewrite En in Ej. simpl in Ej. injection Ej as <-. apply rset_In_inv in Hk' as [->|Hk']; auto. eapply (sr_to _ _ _ _ _ R1); eauto.
      + eapply (sr_to _ _ _ _ _ R1); eauto.
    - intros s0 j Hj. rewrite upd_nth_length. eapply (sr_refs _ _ _ _ _ R1); eauto.
    - intros b Hb. rewrite (aget_aset _ Nat.eqb_eq) in Hb. destruct (Nat.eqb_spec b (placef vec2 c)) as [Eb|_]; [rewrite Eb; apply placef_In; lia|]. apply (sr_dom _ _ _ _ _ R1). auto.
    - apply R1.
  Qed.
  Lemma x_targets_ok cur l : inb h cur -> Forall (fun x => inb h (snd x)) l -> forall st st2 bst m, st_ok t st -> foldM (add_target cur) l st = Ok st2 -> srep f cells st bst m ->
    exists bst2 m2, xfold (x_target ev (ren f cur)) (renR f l) bst m = XOk bst2 m2 /\ srep f cells st2 bst2 m2 /\ st_ok t st2.
  Proof.
    intros Hc. induction 1 as [|x l Hx Hl IH]; intros st st2 bst m Hs E R; cbn [foldM renR map xfold] in *; [injection E as <-; exists bst, m; auto|]. destruct (add_target cur st x) as [st1| |] eqn:E1; cbn [bind] in E; try discriminate.
    destruct (x_target_ok _ _ _ _ _ _ Hs Hc Hx E1 R) as (bst1 & m1 & A & R1 & Hs1). rewrite (xbind_ok _ _ _ _ _ A). eapply IH; eauto.
  Qed.
  Lemma x_step_ok st bst m : st_ok t st -> srep f cells st bst m ->
    match dfa_step h st with
    | inl st2 => exists bst2 m2, x_step ev fuel bst m = XOk (inl bst2) m2 /\ srep f cells st2 bst2 m2 /\ st_ok t st2
    | inr (Ok st2) => x_step ev fuel bst m = XOk (inr bst) m /\ st2 = st
    | _ => True
    end.
  Proof.
    intros Hs R. unfold dfa_step, x_step. pose proof (so_q _ _ Hs) as Hq. rewrite (sr_q _ _ _ _ _ R). destruct (ds_q st) as [|cur q] eqn:Eq; [simpl; auto|].
    inversion Hq as [|? ? Hc Hq']; subst. cbn [map]. rewrite (sr_ref _ _ _ _ _ R), (ref_ren f inj) by (try apply Hs; apply Hc). destruct (ref_of (ds_ref st) cur) as [c|]; auto. rewrite (xopt_ok (Some c) c) by reflexivity. rewrite (sr_done _ _ _ _ _ R).
    destruct (mem c (ds_done st)).
    { eexists _, m. split; [reflexivity|]. split; [split; simpl; auto; apply R|split; simpl; auto; apply Hs]. }
    destruct (collect h cur) as [mm| |] eqn:Em; cbn [bind]; auto.
    assert (Hs1 : st_ok t (mk_dstate (ds_nodes st) (ds_ref st) q (ins c (ds_done st)))) by (split; simpl; auto; apply Hs).
    destruct (foldM (add_target cur) (split_by_end (align_by_begin mm)) (mk_dstate (ds_nodes st) (ds_ref st) q (ins c (ds_done st)))) as [st2| |] eqn:E2; auto.
    assert (Ed : x_deref (fun deref => collect_at ev deref fuel (ren f cur)) m = XOk (renB f mm) m).
    { unfold x_deref. change (deref_n m) with (fun a => aget Nat.eqb a (bx_nfa m)). rewrite (sr_nfa _ _ _ _ _ R). pose proof (collect_ok ev Hev vec t cells H Hw fuel cur mm Hfuel Hc Em) as K. fold f in K. rewrite K. reflexivity. }
    rewrite (xbind_ok _ _ _ _ _ Ed), align_by_ren, split_by_ren.
    assert (R1 : srep f cells (mk_dstate (ds_nodes st) (ds_ref st) q (ins c (ds_done st))) (mk_bstate (bs_vec bst) (renT f (ds_ref st)) (map (ren f) q) (ins c (ds_done st))) m) by (split; simpl; auto; apply R).
    destruct (x_targets_ok cur _ Hc (targets_in h (nw_ok _ Hw) (nw_closed _ Hw) cur mm Hc Em) _ _ _ _ Hs1 E2 R1) as (bst2 & m2 & A & R2 & Hs2). rewrite (xbind_ok _ _ _ _ _ A). exists bst2, m2. auto.
  Qed.
  Lemma x_work_ok n : forall st st2 bst m, st_ok t st -> loop (dfa_step h) n st = Ok st2 -> srep f cells st bst m ->
    exists bst2 m2, xwhile (x_step ev fuel) n bst m = XOk bst2 m2 /\ srep f cells st2 bst2 m2.
  Proof.
    induction n as [|n IH]; intros st st2 bst m Hs E R; simpl in E; [discriminate|]. pose proof (x_step_ok st bst m Hs R) as G. destruct (dfa_step h st) as [st1|[st1| |]]; try discriminate; cbn [xwhile].
    - destruct G as (bst1 & m1 & A & R1 & Hs1). rewrite (xbind_ok _ _ _ _ _ A). eapply IH; eauto.
    - destruct G as [A ->]. rewrite (xbind_ok _ _ _ _ _ A). injection E as <-. exists bst, m. auto.
  Qed.
End Work.

(** *** The result *)
Record drep (d : dfa) (b : bdfa) (m : boxes) : Prop := {
  dr_len : length (bd_vec b) = length (d_nodes d);
  dr_dup : NoDup (bd_vec b);
  dr_cell : forall i nd, nth_error (d_nodes d) i = Some nd -> aget Nat.eqb (placef (bd_vec b) i) (bx_dfa m) = Some (imgd (bd_vec b) nd);
  dr_begin : bd_begin b = placef (bd_vec b) (d_begin d);
  dr_end : bd_end b = map (fun x => (placef (bd_vec b) (fst x), snd x)) (d_end d);
  dr_dom : forall a, aget Nat.eqb a (bx_dfa m) <> None -> In a (bd_vec b);
  dr_nfa : bx_nfa m = []
}.
Section Keys.
  Variable g : nat -> nat.
  Hypothesis inj : forall x y, g x = g y -> x = y.
  Definition renG {V} (l : list (nat * V)) := map (fun x => (g (fst x), snd x)) l.
  Lemma eqb_g x y : Nat.eqb (g x) (g y) = Nat.eqb x y.
  Proof. destruct (Nat.eqb_spec x y) as [->|N0]; [apply Nat.eqb_refl|]. apply Nat.eqb_neq. intros C. apply N0, inj, C. Qed.
  Lemma aget_g {V} k (l : list (nat * V)) : aget Nat.eqb (g k) (renG l) = aget Nat.eqb k l.
  Proof. induction l as [|[k' v] l IH]; simpl; auto. rewrite eqb_g, IH. reflexivity. Qed.
  Lemma aset_g {V} k (v : V) l : aset Nat.eqb (g k) v (renG l) = renG (aset Nat.eqb k v l).
  Proof. induction l as [|[k' v'] l IH]; simpl; auto. rewrite eqb_g. destruct (Nat.eqb k k'); simpl; auto. rewrite <- IH. reflexivity. Qed.
  Definition renA (a : list (nat * nat) * list end_conflict) := (renG (fst a), snd a).
  Lemma mark_g ends s i a : mark_set ends (renA a) (s, g i) = renA (mark_set ends a (s, i)).
  Proof.
    unfold mark_set. cbn [fst snd]. generalize (rev (combine ends (seq 0 (length ends)))). intros l. revert a. induction l as [|x l IH]; intros a; cbn [fold_left]; auto. rewrite <- IH. f_equal. unfold mark_one, renA. cbn [fst snd]. destruct (mem (fst x) s); auto. rewrite aget_g. rewrite aset_g. reflexivity.
  Qed.
End Keys.
Lemma mark_set_ren f (inj : forall x y, f x = f y -> x = y) ends a s i : mark_set (map f ends) a (ren f s, i) = mark_set ends a (s, i).
Proof.
  unfold mark_set. cbn [fst snd]. rewrite map_length.
  assert (Hc : forall n, combine (map f ends) (seq n (length ends)) = map (fun x => (f (fst x), snd x)) (combine ends (seq n (length ends)))) by (clear; induction ends as [|e ends IH]; intros n; simpl; auto; rewrite IH; reflexivity).
  rewrite Hc, <- map_rev. generalize (rev (combine ends (seq 0 (length ends)))). intros l. revert a. induction l as [|x l IHl]; intros a; cbn [map fold_left]; auto. rewrite <- IHl. f_equal. unfold mark_one. cbn [fst snd]. rewrite (mem_ren f inj). reflexivity.
Qed.
Lemma x_marks_ok f g dvec ends m : (forall x y, f x = f y -> x = y) -> (forall x y, g x = g y -> x = y) -> forall l a, (forall s i, In (s, i) l -> nth_error dvec i = Some (g i)) ->
  xfold (x_mark dvec (map f ends)) (renT f l) (renA g a) m = XOk (renA g (fold_left (mark_set ends) l a)) m.
Proof.
  intros If Ig. induction l as [|[s i] l IH]; intros a Hl; cbn [renT map xfold fold_left]; [reflexivity|]. cbn [fst snd].
  assert (E : x_mark dvec (map f ends) (renA g a) (ren f s, i) m = XOk (renA g (mark_set ends a (s, i))) m).
  { unfold x_mark. cbn [fst snd]. rewrite (xopt_ok _ _ _ _ (Hl s i ltac:(left; auto))). unfold xret. rewrite (mark_set_ren f If), (mark_g g Ig). reflexivity. }
  rewrite (xbind_ok _ _ _ _ _ E). apply IH. intros; eapply Hl; right; eauto.
Qed.

Lemma xbind_inv {A B} (x : X A) (f : A -> X B) m b m' : xbind x f m = XOk b m' -> exists a m1, x m = XOk a m1 /\ f a m1 = XOk b m'.
Proof. unfold xbind. destruct (x m) as [a m1| | | |]; try discriminate. eauto. Qed.
Lemma x_target_hd ev cur st x m st2 m2 z : x_target ev cur st x m = XOk st2 m2 -> nth_error (bs_vec st) 0 = Some z -> nth_error (bs_vec st2) 0 = Some z.
Proof.
  destruct x as [r s]. unfold x_target. intros E Hz. apply xbind_inv in E as ([[v rs] a] & m1 & E1 & E). apply xbind_inv in E as (c & m3 & _ & E). apply xbind_inv in E as (b & m4 & _ & E). apply xbind_inv in E as (u & m5 & _ & E). injection E as <- _. cbn [bs_vec].
  destruct (ref_of (bs_ref st) s); apply xbind_inv in E1 as (a' & m6 & _ & E1); injection E1 as <- _ _ _; auto. destruct (bs_vec st); [discriminate|exact Hz].
Qed.
Lemma x_step_hd ev fuel st m st2 m2 z : x_step ev fuel st m = XOk st2 m2 -> nth_error (bs_vec st) 0 = Some z -> match st2 with inl s | inr s => nth_error (bs_vec s) 0 = Some z end.
Proof.
  unfold x_step. intros E Hz. destruct (bs_q st) as [|cur q]; [injection E as <- _; auto|]. apply xbind_inv in E as (c & m3 & _ & E). destruct (mem c (bs_done st)); [injection E as <- _; auto|]. apply xbind_inv in E as (mm & m4 & _ & E). apply xbind_inv in E as (s2 & m5 & E1 & E). injection E as <- _.
  assert (G : forall l s m, nth_error (bs_vec s) 0 = Some z -> forall s2 m2, xfold (x_target ev cur) l s m = XOk s2 m2 -> nth_error (bs_vec s2) 0 = Some z).
  { induction l as [|x l IH]; intros s m0 Hs s3 m6 E; cbn [xfold] in E; [injection E as <- _; auto|]. apply xbind_inv in E as (s4 & m7 & E2 & E). eapply IH; [|exact E]. eapply x_target_hd; eauto. }
  eapply G; [|exact E1]. exact Hz.
Qed.
Lemma x_work_hd ev fuel n : forall st m st2 m2 z, xwhile (x_step ev fuel) n st m = XOk st2 m2 -> nth_error (bs_vec st) 0 = Some z -> nth_error (bs_vec st2) 0 = Some z.
Proof.
  induction n as [|n IH]; intros st m st2 m2 z E Hz; cbn [xwhile] in E; [discriminate|]. apply xbind_inv in E as (r & m1 & E1 & E). pose proof (x_step_hd _ _ _ _ _ _ _ E1 Hz) as G. destruct r as [s|s]; [eapply IH; eauto|injection E as <- _; auto].
Qed.

Section Top.
  Variables (ev : box_env) (Hev : env_fine ev).
  Theorem x_dfa_ok b t m : nrep (bn_vec b) t (bx_nfa m) -> nfa_wf t -> bx_dfa m = [] -> bn_begin b = at_ (bn_vec b) (tn_begin t) -> bn_ends b = map (at_ (bn_vec b)) (tn_end t) ->
    exists F, forall fuel, F <= fuel -> exists order d ws b' m', (forall l, Permutation (order l) l) /\ dfa_of order fuel t = Ok (d, ws) /\
      dfa_good (length (tn_end t)) (nfa_lang t) d /\ x_dfa_of ev fuel b m = XOk (b', ws) m' /\ drep d b' m'.
  Proof.
    intros H Hw Hd Hb He. destruct (dfa_of_any t Hw) as (F & nodes & HF). set (vec := bn_vec b) in *. set (cells := bx_nfa m) in *. set (t' := spread ev vec t cells). exists (max F (eps_fuel (tn_nodes t'))). intros fuel Hfuel.
    set (f := placef vec). pose proof (f_inj vec t cells H) as inj. fold f in inj. pose proof (spread_placed ev Hev vec t cells H) as HP. fold t' f in HP. pose proof (spread_wf ev Hev vec t cells H Hw) as Hw'. fold t' in Hw'.
    destruct (HF (fun l => l) fuel (fun l => Permutation_refl l) ltac:(lia)) as (en0 & ws0 & E0 & _). unfold dfa_of in E0.
    destruct (cl_ok _ (nw_closed _ Hw) (tn_begin t) (nw_begin _ Hw)) as (Eb & Hbs & _). rewrite Eb in E0. cbn [bind] in E0.
    destruct (loop (dfa_step (tn_nodes t)) fuel (mk_dstate [[]] [(cl (tn_nodes t) (tn_begin t), 0)] [cl (tn_nodes t) (tn_begin t)] [])) as [st| |] eqn:El; cbn [bind] in E0; try discriminate. clear E0 en0 ws0.
    assert (Hs : st_ok t (mk_dstate [[]] [(cl (tn_nodes t) (tn_begin t), 0)] [cl (tn_nodes t) (tn_begin t)] [])).
    { split; simpl; [constructor; auto; constructor|]. constructor; [|constructor]. split; auto. intros x Hx. eapply cl_in; eauto; apply Hw. }
    set (begin := ev_alloc ev (bx_clock m) (used m)). set (m1 := mk_boxes cells ((begin, []) :: bx_dfa m) (S (bx_clock m))).
    assert (Fb : f (tn_begin t) = bn_begin b) by (rewrite Hb; apply placef_at; rewrite (nr_len _ _ _ H); apply Hw).
    assert (Fe : map f (tn_end t) = bn_ends b) by (rewrite He; apply map_ext_in; intros q Hq; apply placef_at; rewrite (nr_len _ _ _ H); eapply nr_ends; eauto).
    assert (Er : x_deref (fun deref => eps_rec_at ev deref fuel (bn_begin b)) m1 = XOk (ren f (cl (tn_nodes t) (tn_begin t))) m1).
    { unfold x_deref. change (deref_n m1) with (fun a => aget Nat.eqb a cells). rewrite <- Fb. rewrite (eps_rec_ok ev Hev vec t cells H Hw fuel) by (try apply (live_in vec t cells H); try apply Hw; fold t'; lia). fold t'.
      destruct (cl_ok _ (nw_closed _ Hw') (f (tn_begin t)) (place_lt f t t' HP _ (nw_begin _ Hw))) as (E & _). rewrite E, (cl_ren f t t' HP Hw Hw') by apply Hw. reflexivity. }
    assert (R0 : srep f cells (mk_dstate [[]] [(cl (tn_nodes t) (tn_begin t), 0)] [cl (tn_nodes t) (tn_begin t)] []) (mk_bstate [begin] [(ren f (cl (tn_nodes t) (tn_begin t)), 0)] [ren f (cl (tn_nodes t) (tn_begin t))] []) m1).
    { split; cbn [bs_ref bs_vec bs_q bs_done ds_ref ds_nodes ds_q ds_done]; try reflexivity.
      - repeat constructor. intros [].
      - intros [|[|i]] nd Ei; simpl in Ei; try discriminate. injection Ei as <-. unfold m1, placef. simpl. rewrite Nat.eqb_refl. reflexivity.
      - intros [|[|i]] nd r j Ei; simpl in Ei; try discriminate. injection Ei as <-. intros [].
      - intros s i [E|[]]. injection E as _ <-. simpl. lia.
      - intros a. unfold m1. cbn [bx_dfa aget]. rewrite Hd. simpl. destruct (Nat.eqb_spec a begin) as [E|_]; [left; auto|congruence]. }
    destruct (x_work_ok ev Hev vec t cells H Hw fuel ltac:(fold t'; lia) fuel _ _ _ _ Hs El R0) as (bst & m2 & A & R). fold f in R. set (dvec := bs_vec bst) in *. set (g := placef dvec).
    pose proof (placef_inj dvec (sr_dup _ _ _ _ _ R)) as Ig. fold g in Ig.
    destruct (Permutation_map_inv _ _ (ef_order _ Hev (renT f (ds_ref st)))) as (l3 & E3 & P3).
    assert (dec : forall a b : list nat * nat, {a = b} + {a <> b}) by (decide equality; [apply Nat.eq_dec|apply list_eq_dec, Nat.eq_dec]).
    assert (Eo : ev_order ev (renT f (ds_ref st)) = renT f l3) by exact E3.
    set (order := fun l => if list_eq_dec dec l (ds_ref st) then l3 else l).
    assert (Ho : forall l, Permutation (order l) l) by (intros l; unfold order; destruct (list_eq_dec dec l (ds_ref st)) as [->|]; [apply Permutation_sym; exact P3|apply Permutation_refl]).
    destruct (HF order fuel Ho ltac:(lia)) as (en & ws & Ed & Hg & _).
    assert (Em : mark_all (tn_end t) l3 = (en, ws) /\ ds_nodes st = nodes).
    { unfold dfa_of in Ed. rewrite Eb in Ed. cbn [bind] in Ed. rewrite El in Ed. cbn [bind] in Ed. unfold order in Ed. destruct (list_eq_dec dec (ds_ref st) (ds_ref st)); [|congruence]. destruct (mark_all (tn_end t) l3) as [en1 ws1]. injection Ed as -> -> ->. auto. }
    destruct Em as [Em En].
    assert (Eq : xfold (x_mark dvec (bn_ends b)) (ev_order ev (bs_ref bst)) ([], []) m2 = XOk (renG g en, ws) m2).
    { rewrite (sr_ref _ _ _ _ _ R), Eo, <- Fe. change ([], []) with (renA g ([], [])). rewrite (x_marks_ok f g dvec (tn_end t) m2 inj Ig l3).
      - unfold mark_all in Em. rewrite Em. reflexivity.
      - intros s i Hi. apply placef_nth. unfold dvec. rewrite (sr_len _ _ _ _ _ R). apply (sr_refs _ _ _ _ _ R s). apply (Permutation_in _ (Permutation_sym P3)). auto. }
    destruct (free_n_all vec m2 (nr_dup _ _ _ H)) as (m3 & B1 & B2 & B3).
    { intros a Ha. rewrite (sr_nfa _ _ _ _ _ R). destruct (cell_in vec t cells H a Ha) as [nd E]. rewrite E. discriminate. }
    exists order, (mk_dfa nodes 0 en), ws, (mk_bdfa dvec begin (renG g en)), m3. split; auto. split; auto. split; auto. split.
    - unfold x_dfa_of. rewrite (xbind_ok _ _ m begin m1) by reflexivity. rewrite (xbind_ok _ _ _ _ _ Er), (xbind_ok _ _ _ _ _ A). fold dvec. rewrite (xbind_ok _ _ _ _ _ Eq). fold vec. rewrite (xbind_ok _ _ _ _ _ B1). reflexivity.
    - split; cbn [bd_vec bd_begin bd_end d_nodes d_begin d_end].
      + unfold dvec. rewrite (sr_len _ _ _ _ _ R). congruence.
      + apply R.
      + intros i nd Ei. rewrite B2. apply (sr_cell _ _ _ _ _ R). congruence.
      + assert (Hz : 0 < length dvec). { unfold dvec. rewrite (sr_len _ _ _ _ _ R), En. exact (dg_begin _ _ _ Hg). }
        assert (K : nth_error dvec 0 = Some begin) by (eapply x_work_hd; [exact A|reflexivity]). rewrite (placef_nth dvec 0 Hz) in K. injection K as ->. reflexivity.
      + reflexivity.
      + intros a. rewrite B2. apply R.
      + apply aget_empty. intros a. rewrite B3, (sr_nfa _ _ _ _ _ R). destruct (mem a vec) eqn:E; auto. destruct (aget Nat.eqb a cells) eqn:E2; auto. exfalso. apply mem_nIn in E. apply E, (nr_dom _ _ _ H). congruence.
  Qed.
End Top.
