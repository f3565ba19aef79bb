(** The subset construction does not depend on the addresses, second part (for C84). *)
From Coq Require Import Permutation.
From Verif Require Import Lib Hir NfaPath NfaModel NfaProofs DfaModel DfaEdges TokMore PlaceSpec PlaceProofs.

(** *** What holds of all sets in the tables *)
Section AllSets.
  Variable P : list nat -> Prop.
  Hypothesis P0 : P [].
  Hypothesis P1 : forall a b, P a -> P b -> P (ins_all a b).
  Definition allE (em : emap) : Prop := Forall (fun x => P (snd x)) em.
  Definition allB (m : bmap) : Prop := Forall (fun x => allE (snd x)) m.
  Lemma bupd_all {V} (Q : V -> Prop) k d f (m : list (N * V)) : Q d -> (forall v, Q v -> Q (f v)) -> Forall (fun x => Q (snd x)) m -> Forall (fun x => Q (snd x)) (bupd k d f m).
  Proof. intros Hd Hf H. induction H as [|[k' v'] m Hx Hm IH]; simpl; [constructor; simpl; auto|]. simpl in Hx. destruct (N.compare k k'); constructor; simpl; auto. Qed.
  Lemma allE_add em e s : allE em -> P s -> allE (bupd e [] (fun old => ins_all s old) em).
  Proof. intros H Hs. apply bupd_all; auto. Qed.
  Lemma allB_add m r s : allB m -> P s -> allB (add_edge r s m).
  Proof. intros H Hs. apply (bupd_all allE); auto; [constructor|]. intros em He. apply allE_add; auto. Qed.
  Lemma allB_adds es : forall m, allB m -> Forall (fun x => P (snd x)) es -> allB (adds es m).
  Proof. induction es as [|x es IH]; intros m Hm He; simpl; auto. inversion He; subst. apply IH; auto. apply allB_add; auto. Qed.
  Lemma all_align rest : forall cur, allE (snd cur) -> allB rest -> allB (align cur rest).
  Proof.
    induction rest as [|[upper nxt] rest IH]; intros [b em] Hc Hr; cbn [align fst snd]; [constructor; auto; constructor|]. cbn [snd] in Hc. inversion Hr as [|? ? Hn Hr']; subst. cbn [snd] in Hn.
    assert (Hf : forall p, allE (filter p em)) by (intros p; apply Forall_forall; intros x Hx; apply filter_In in Hx as [Hx _]; unfold allE in Hc; rewrite Forall_forall in Hc; auto).
    pose proof (Hf (fun kv => N.ltb upper (fst kv))) as Hg. pose proof (Hf (fun kv => negb (N.ltb upper (fst kv)))) as Hk.
    set (greater := filter (fun kv => N.ltb upper (fst kv)) em) in *. set (keep := filter (fun kv => negb (N.ltb upper (fst kv))) em) in *.
    assert (HX : allB ((b, em) :: align (upper, nxt) rest)) by (constructor; [exact Hc|apply IH; [exact Hn|exact Hr']]).
    assert (HY : allB ((b, bupd upper [] (fun old => ins_all (fold_left (fun s kv => ins_all (snd kv) s) greater []) old) keep)
          :: align (upper, fold_left (fun m kv => bupd (fst kv) [] (fun old => ins_all (snd kv) old) m) greater nxt) rest)).
    { constructor; cbn [snd].
      - apply allE_add; auto. assert (G : forall s0, P s0 -> P (fold_left (fun s kv => ins_all (snd kv) s) greater s0)); [|apply G; auto].
        clear -P1 Hg. clearbody greater. induction Hg; simpl; auto.
      - apply IH; auto. cbn [snd]. assert (G : forall m, allE m -> allE (fold_left (fun m kv => bupd (fst kv) [] (fun old => ins_all (snd kv) old) m) greater m)); [|apply G; auto].
        clear -P0 P1 Hg. clearbody greater. induction Hg; simpl; auto. intros m Hm. apply IHHg. apply allE_add; auto. }
    clearbody greater. destruct greater; auto.
  Qed.
  Lemma all_align_by m : allB m -> allB (align_by_begin m).
  Proof. intros H. destruct m; simpl; auto. inversion H; subst. apply all_align; auto. Qed.
  Lemma all_split em : allE em -> forall b, Forall (fun x => P (snd x)) (fst (split_ranges b em)) /\ P (snd (split_ranges b em)).
  Proof. induction 1 as [|[e s] em Hs He IH]; intros b; simpl; [split; auto; constructor|]. specialize (IH e). destruct (split_ranges e em) as [rs sum]. simpl in *. destruct IH. split; [constructor; simpl; auto|auto]. Qed.
  Lemma all_split_by m : allB m -> Forall (fun x => P (snd x)) (split_by_end m).
  Proof. intros H. unfold split_by_end. induction H as [|[b em] m He Hm IH]; simpl; [constructor|]. apply Forall_app. split; auto. apply all_split. auto. Qed.
End AllSets.

(** *** Collecting in two steps *)
Definition cl (h : list nnode) (p : nat) : list nat := match eps_rec h p with Ok s => s | _ => [] end.
Definition edges (h : list nnode) (n : nat) : list (crange * list nat) :=
  match nth_error h n with Some nd => map (fun e => (fst e, to_set (concat (map (cl h) (snd e))))) (n_next nd) | None => [] end.
Section Heap.
  Variable h : list nnode.
  Hypothesis Hok : okh h.
  Hypothesis Hcl : closed (hedge h) (fun p => p < length h).
  Lemma cl_ok p : p < length h -> eps_rec h p = Ok (cl h p) /\ sorted (cl h p) /\ forall x, In x (cl h p) <-> path (hedge h) p [] x.
  Proof. intros Hp. destruct (eps_rec_spec h Hcl p Hp) as (s & E & A & B). unfold cl. rewrite E. auto. Qed.
  Lemma cl_in p x : p < length h -> In x (cl h p) -> x < length h.
  Proof. intros Hp Hx. apply cl_ok in Hx; auto. exact (path_closed (hedge h) (fun p => p < length h) p [] x Hcl Hp Hx). Qed.
  Lemma cl_all l : (forall p, In p l -> p < length h) -> mapM (eps_rec h) l = Ok (map (cl h) l).
  Proof. induction l as [|p l IH]; intros Hl; simpl; auto. destruct (cl_ok p) as [-> _]; [apply Hl; simpl; auto|]. simpl. rewrite IH by (intros; apply Hl; simpl; auto). reflexivity. Qed.
  Lemma next_in n nd r s p : nth_error h n = Some nd -> In (r, s) (n_next nd) -> In p s -> p < length h.
  Proof.
    intros En Hi Hp. assert (Hn : n < length h) by (apply nth_error_Some; congruence). unfold okh in Hok. rewrite Forall_forall in Hok. destruct (Hok nd (nth_error_In _ _ En) r s Hi) as [Hr _].
    apply (Hcl n (Some (fst r)) p Hn). exists nd. split; auto. exists r, s. split; auto. split; auto. split; lia.
  Qed.
  Lemma node_adds n m : n < length h -> collect_node h m n = Ok (adds (edges h n) m).
  Proof.
    intros Hn. unfold collect_node, edges. destruct (nth_error h n) as [nd|] eqn:En; [|apply nth_error_None in En; lia]. simpl.
    assert (Hb : forall r s, In (r, s) (n_next nd) -> forall p, In p s -> p < length h) by (intros; eapply next_in; eauto).
    revert m Hb. induction (n_next nd) as [|[r s] es IH]; intros m Hb; simpl; auto. unfold collect_edge at 1. cbn [fst snd]. rewrite cl_all by (intros; eapply Hb; eauto; simpl; auto). simpl. rewrite IH; auto. intros r' s' Hi. apply Hb with (r := r'). simpl. auto.
  Qed.
  Lemma collect_adds cur : (forall p, In p cur -> p < length h) -> collect h cur = Ok (adds (flat_map (edges h) cur) []).
  Proof.
    unfold collect. generalize (@nil (N * emap)). induction cur as [|n cur IH]; intros m Hc; simpl; auto. rewrite node_adds by (apply Hc; simpl; auto). simpl. rewrite IH by (intros; apply Hc; simpl; auto). unfold adds. rewrite fold_left_app. reflexivity.
  Qed.
  Definition inb (s : list nat) : Prop := sorted s /\ forall x, In x s -> x < length h.
  Lemma inb_nil : inb []. Proof. split; [constructor|intros ? []]. Qed.
  Lemma inb_all a b : inb a -> inb b -> inb (ins_all a b).
  Proof. intros [_ A] [B C]. split; [apply sorted_ins_all; auto|]. intros x Hx. apply In_ins_all in Hx as [Hx|Hx]; auto. Qed.
  Lemma edges_in n : Forall (fun x => inb (snd x)) (edges h n).
  Proof.
    unfold edges. destruct (nth_error h n) as [nd|] eqn:En; [|constructor]. apply Forall_forall. intros x Hx. apply in_map_iff in Hx as ([r s] & <- & Hi). cbn [fst snd]. split; [apply sorted_to_set|].
    intros x Hx. apply In_to_set, in_concat in Hx as (l & Hl & Hx). apply in_map_iff in Hl as (p & <- & Hp). eapply cl_in; eauto. eapply next_in; eauto.
  Qed.
  Lemma targets_in cur m : inb cur -> collect h cur = Ok m -> Forall (fun x => inb (snd x)) (split_by_end (align_by_begin m)).
  Proof.
    intros [_ Hc] E. rewrite collect_adds in E by auto. injection E as <-. apply all_split_by; try apply inb_nil; try apply inb_all. apply all_align_by; try apply inb_nil; try apply inb_all. apply allB_adds; try apply inb_nil; try apply inb_all; [constructor|].
    apply Forall_forall. intros x Hx. apply in_flat_map in Hx as (n & _ & Hx). pose proof (edges_in n) as H. rewrite Forall_forall in H. auto.
  Qed.
End Heap.

(** *** Two automata *)
Section Placed.
  Variables (f : nat -> nat) (t t' : tnfa).
  Hypothesis HP : placed f t t'.
  Hypothesis Hw : nfa_wf t.
  Hypothesis Hw' : nfa_wf t'.
  Let h := tn_nodes t.
  Let h' := tn_nodes t'.
  Lemma Pinj x y : f x = f y -> x = y. Proof. apply (pl_distinct _ _ _ HP). Qed.
  Lemma place_lt x : x < length h -> f x < length h'.
  Proof. intros Hx. apply nth_error_Some in Hx. destruct (nth_error h x) as [nd|] eqn:E; [|congruence]. destruct (pl_node _ _ _ HP _ _ E) as (nd' & E' & _). apply nth_error_Some. unfold h'. congruence. Qed.
  Lemma hedge_ren x l y : x < length h -> (hedge h' (f x) l y <-> exists x', y = f x' /\ hedge h x l x').
  Proof.
    intros Hx. apply nth_error_Some in Hx. destruct (nth_error h x) as [nd|] eqn:E; [|congruence]. destruct (pl_node _ _ _ HP _ _ E) as (nd' & E' & He & Hn).
    assert (G : nedge nd' l y <-> exists x', y = f x' /\ nedge nd l x').
    { destruct l as [c|]; simpl.
      - split.
        + intros (r & s & Hi & Hr & Hy). destruct (Forall2_In_r _ _ _ _ Hn Hi) as ([r0 s0] & Hi0 & Er & Hs). cbn [fst snd] in *. subst r0. apply (Permutation_in _ (Permutation_sym Hs)) in Hy. apply in_map_iff in Hy as (x' & <- & Hx'). exists x'. split; auto. exists r, s0. auto.
        + intros (x' & -> & r & s & Hi & Hr & Hy). destruct (Forall2_In_l _ _ _ _ Hn Hi) as ([r0 s0] & Hi0 & Er & Hs). cbn [fst snd] in *. subst r0. exists r, s0. split; auto. split; auto. apply (Permutation_in _ Hs). apply in_map. auto.
      - split.
        + intros Hy. apply (Permutation_in _ (Permutation_sym He)) in Hy. apply in_map_iff in Hy as (x' & <- & Hx'). eauto.
        + intros (x' & -> & Hy). apply (Permutation_in _ He). apply in_map. auto. }
    split.
    - intros (n & En & Hy). unfold h' in En. rewrite E' in En. injection En as <-. apply G in Hy as (x' & -> & Hy). exists x'. split; auto. exists nd. auto.
    - intros (x' & -> & n & En & Hy). rewrite E in En. injection En as <-. exists nd'. split; auto. apply G. eauto.
  Qed.
  Lemma path_fwd x w y : path (hedge h) x w y -> x < length h -> path (hedge h') (f x) w (f y).
  Proof.
    induction 1 as [z|z y z' w Hr Hp IH|z c y w z' Hr Hp IH]; intros Hx; [constructor|eapply p_eps|eapply p_chr].
    - apply hedge_ren; eauto. - apply IH. eapply (nw_closed _ Hw); eauto. - apply hedge_ren; eauto. - apply IH. eapply (nw_closed _ Hw); eauto.
  Qed.
  Lemma path_bwd a w b : path (hedge h') a w b -> forall x, a = f x -> x < length h -> exists y, b = f y /\ path (hedge h) x w y.
  Proof.
    induction 1 as [z|z y z' w Hr Hp IH|z c y w z' Hr Hp IH]; intros x -> Hx; [exists x; split; auto; constructor| |]; apply (hedge_ren _ _ _ Hx) in Hr as (x' & -> & Hr); destruct (IH x' eq_refl (nw_closed _ Hw x _ x' Hx Hr)) as (y & -> & Hy); exists y; split; auto.
    - eapply p_eps; eauto.
    - eapply p_chr; eauto.
  Qed.
  Lemma cl_ren x : x < length h -> cl h' (f x) = ren f (cl h x).
  Proof.
    intros Hx. destruct (cl_ok h (nw_closed _ Hw) x Hx) as (_ & _ & A). destruct (cl_ok h' (nw_closed _ Hw') (f x) (place_lt _ Hx)) as (_ & B & C).
    apply sorted_ext; [exact B|apply ren_sorted|]. intros y. rewrite C, In_ren. split.
    - intros Hp. destruct (path_bwd _ _ _ Hp x eq_refl Hx) as (z & -> & Hz). exists z. split; auto. apply A. auto.
    - intros (z & -> & Hz). apply path_fwd; auto. apply A. auto.
  Qed.
  Lemma edges_ren x : x < length h -> edges h' (f x) = renR f (edges h x).
  Proof.
    intros Hx. unfold edges. apply nth_error_Some in Hx. destruct (nth_error h x) as [nd|] eqn:E; [|congruence]. destruct (pl_node _ _ _ HP _ _ E) as (nd' & E' & _ & Hn). unfold h'. rewrite E'. fold h'.
    assert (Hb : forall r s, In (r, s) (n_next nd) -> forall p, In p s -> p < length h) by (intros; eapply (next_in h (nw_ok _ Hw) (nw_closed _ Hw)); eauto).
    clear E E'. induction Hn as [|[r s] [r' s'] l l' [Er Hs] Hn IH]; [reflexivity|]. cbn [map renR fst snd] in *. subst r'. f_equal; [|apply IH; intros r0 s0 Hi; apply (Hb r0); right; auto].
    f_equal. apply sorted_ext; [apply sorted_to_set|apply ren_sorted|]. intros y. rewrite In_to_set, In_ren, in_concat. split.
    - intros (l0 & Hl & Hy). apply in_map_iff in Hl as (p' & <- & Hp). apply (Permutation_in _ (Permutation_sym Hs)) in Hp. apply in_map_iff in Hp as (p & <- & Hp).
      rewrite cl_ren in Hy by (eapply Hb; [left; reflexivity|auto]). apply In_ren in Hy as (z & -> & Hz). exists z. split; auto. apply In_to_set, in_concat. exists (cl h p). split; auto. apply in_map. auto.
    - intros (z & -> & Hz). apply In_to_set, in_concat in Hz as (l0 & Hl & Hz). apply in_map_iff in Hl as (p & <- & Hp). exists (cl h' (f p)). split; [apply in_map, (Permutation_in _ Hs), in_map; auto|].
      rewrite cl_ren by (eapply Hb; [left; reflexivity|auto]). apply In_ren. eauto.
  Qed.
  Lemma adds_ren es : forall m, adds (renR f es) (renB f m) = renB f (adds es m).
  Proof. induction es as [|x es IH]; intros m; simpl; auto. rewrite (add_edge_ren f). apply IH. Qed.
  Lemma collect_ren cur m : inb h cur -> collect h cur = Ok m -> collect h' (ren f cur) = Ok (renB f m).
  Proof.
    intros [Hs Hc] E. rewrite (collect_adds h (nw_ok _ Hw) (nw_closed _ Hw)) in E by auto. injection E as <-. rewrite (collect_adds h' (nw_ok _ Hw') (nw_closed _ Hw')).
    - f_equal. rewrite <- adds_ren. cbn [renB map]. rewrite (adds_perm _ (flat_map (edges h') (map f cur))); [|apply Permutation_flat_map, perm_ren; auto; apply Pinj|apply fine_nil]. f_equal.
      clear Hs. induction cur as [|n cur IH]; simpl; auto. unfold renR. rewrite map_app. fold (renR f (edges h n)). rewrite edges_ren by (apply Hc; simpl; auto). f_equal. apply IH. intros; apply Hc; simpl; auto.
    - intros p Hp. apply In_ren in Hp as (x & -> & Hx). apply place_lt; auto.
  Qed.

  (** *** The work list *)
  Definition renS (st : dstate) : dstate := mk_dstate (ds_nodes st) (renT f (ds_ref st)) (map (ren f) (ds_q st)) (ds_done st).
  Record st_ok (st : dstate) : Prop := { so_keys : keys_ok (ds_ref st); so_q : Forall (inb h) (ds_q st) }.
  Lemma target_ren cur st x st2 : st_ok st -> inb h cur -> inb h (snd x) -> add_target cur st x = Ok st2 ->
    add_target (ren f cur) (renS st) (fst x, ren f (snd x)) = Ok (renS st2) /\ st_ok st2.
  Proof.
    intros [A B] Hc Hx H. destruct x as [r s]. cbn [fst snd] in *. unfold add_target in *. cbn [renS ds_ref ds_nodes ds_q ds_done]. rewrite (ref_ren f Pinj) by (auto; apply Hx).
    assert (HA : keys_ok (aset list_eqb s (length (ds_nodes st)) (ds_ref st))) by (apply keys_aset; auto; apply Hx).
    destruct (ref_of (ds_ref st) s) as [i|] eqn:Er.
    - rewrite (ref_ren f Pinj) by (auto; apply Hc). destruct (ref_of (ds_ref st) cur) as [c|]; simpl in *; [|discriminate]. injection H as <-. split; [unfold renS; simpl; rewrite map_app; reflexivity|]. split; simpl; auto. apply Forall_app. split; auto.
    - rewrite (aset_ren f Pinj) by (auto; apply Hx). rewrite (ref_ren f Pinj) by (auto; apply Hc). destruct (ref_of (aset list_eqb s (length (ds_nodes st)) (ds_ref st)) cur) as [c|]; simpl in *; [|discriminate]. injection H as <-. split; [unfold renS; simpl; rewrite map_app; reflexivity|]. split; simpl; auto. apply Forall_app. split; auto.
  Qed.
  Lemma targets_ren cur l : inb h cur -> Forall (fun x => inb h (snd x)) l -> forall st st2, st_ok st -> foldM (add_target cur) l st = Ok st2 ->
    foldM (add_target (ren f cur)) (renR f l) (renS st) = Ok (renS st2) /\ st_ok st2.
  Proof.
    intros Hc. induction 1 as [|x l Hx Hl IH]; intros st st2 Hs H; cbn [foldM renR map] in *; [injection H as <-; auto|]. destruct (add_target cur st x) as [st1| |] eqn:E; cbn [bind] in H; try discriminate.
    destruct (target_ren _ _ _ _ Hs Hc Hx E) as [E' Hs']. rewrite E'. cbn [bind]. apply IH; auto.
  Qed.
  Lemma step_ren st : st_ok st ->
    match dfa_step h st with
    | inl st2 => dfa_step h' (renS st) = inl (renS st2) /\ st_ok st2
    | inr (Ok st2) => dfa_step h' (renS st) = inr (Ok (renS st2))
    | _ => True
    end.
  Proof.
    intros Hs. unfold dfa_step. cbn [renS ds_q]. pose proof (so_q _ Hs) as Hq. destruct (ds_q st) as [|cur q] eqn:Eq; [simpl; unfold renS; rewrite Eq; reflexivity|].
    inversion Hq as [|? ? Hc Hq']; subst. cbn [renS map ds_ref ds_nodes ds_done]. rewrite (ref_ren f Pinj) by (try apply Hs; apply Hc). destruct (ref_of (ds_ref st) cur) as [c|]; auto.
    destruct (mem c (ds_done st)); [split; [reflexivity|split; simpl; auto; apply Hs]|].
    destruct (collect h cur) as [m| |] eqn:Em; simpl; auto. rewrite (collect_ren cur m Hc Em). simpl. rewrite align_by_ren, split_by_ren.
    assert (Hs1 : st_ok (mk_dstate (ds_nodes st) (ds_ref st) q (ins c (ds_done st)))) by (split; simpl; auto; apply Hs).
    destruct (foldM (add_target cur) (split_by_end (align_by_begin m)) (mk_dstate (ds_nodes st) (ds_ref st) q (ins c (ds_done st)))) as [st2| |] eqn:E2; auto.
    destruct (targets_ren cur _ Hc (targets_in h (nw_ok _ Hw) (nw_closed _ Hw) cur m Hc Em) _ _ Hs1 E2) as [E3 Hs2]. unfold renS in E3 at 1. cbn [ds_nodes ds_ref ds_q ds_done] in E3. rewrite E3. auto.
  Qed.
  Lemma loop_ren fuel : forall st st2, st_ok st -> loop (dfa_step h) fuel st = Ok st2 -> loop (dfa_step h') fuel (renS st) = Ok (renS st2).
  Proof.
    induction fuel as [|fuel IH]; intros st st2 Hs H; simpl in *; [discriminate|]. pose proof (step_ren st Hs) as G. destruct (dfa_step h st) as [st1|[st1| |]]; try discriminate.
    - destruct G as [-> Hs1]. apply IH; auto.
    - rewrite G. congruence.
  Qed.

  Lemma placed_dfa order fuel d ws : (forall l, Permutation (order l) l) -> (exists order0, dfa_of order0 fuel t = Ok (d, ws)) ->
    exists order' d' ws', (forall l, Permutation (order' l) l) /\ dfa_of order fuel t' = Ok (d', ws') /\ dfa_of order' fuel t = Ok (d', ws').
  Proof.
    intros Ho [order0 H]. unfold dfa_of in *. fold h in H |- *. fold h'. destruct (cl_ok h (nw_closed _ Hw) (tn_begin t) (nw_begin _ Hw)) as (Eb & Hb & _).
    rewrite Eb in H |- *. simpl in H. rewrite (pl_begin _ _ _ HP). destruct (cl_ok h' (nw_closed _ Hw') (f (tn_begin t)) (place_lt _ (nw_begin _ Hw))) as (Eb' & _). rewrite Eb'. rewrite cl_ren by apply Hw. simpl.
    destruct (loop (dfa_step h) fuel (mk_dstate [[]] [(cl h (tn_begin t), 0)] [cl h (tn_begin t)] [])) as [st| |] eqn:El; simpl in H; try discriminate.
    assert (Hs : st_ok (mk_dstate [[]] [(cl h (tn_begin t), 0)] [cl h (tn_begin t)] [])).
    { split; simpl; [constructor; auto; constructor|]. constructor; [|constructor]. split; auto. intros x Hx. eapply cl_in; eauto; apply Hw. }
    pose proof (loop_ren _ _ _ Hs El) as El'. unfold renS in El' at 1. cbn [ds_nodes ds_ref ds_q ds_done renT map fst snd] in El'. rewrite El'. simpl.
    destruct (Permutation_map_inv _ _ (Ho (renT f (ds_ref st)))) as (l3 & E3 & P3).
    assert (dec : forall a b : list nat * nat, {a = b} + {a <> b}) by (decide equality; [apply Nat.eq_dec|apply list_eq_dec, Nat.eq_dec]).
    assert (Eo : order (renT f (ds_ref st)) = renT f l3) by exact E3.
    rewrite Eo, (pl_end _ _ _ HP), (mark_ren f Pinj). destruct (mark_all (tn_end t) l3) as [en ws'] eqn:Em.
    exists (fun l => if list_eq_dec dec l (ds_ref st) then l3 else l), (mk_dfa (ds_nodes st) 0 en), ws'. split; [|split; [reflexivity|]].
    - intros l. destruct (list_eq_dec dec l (ds_ref st)) as [->|]; [apply Permutation_sym; exact P3|apply Permutation_refl].
    - destruct (list_eq_dec dec (ds_ref st) (ds_ref st)); [|congruence]. rewrite Em. reflexivity.
  Qed.
  Lemma placed_back order fuel d ws : (forall l, Permutation (order l) l) -> dfa_of order fuel t = Ok (d, ws) ->
    exists order', (forall l, Permutation (order' l) l) /\ dfa_of order' fuel t' = Ok (d, ws).
  Proof.
    intros Ho H. unfold dfa_of in *. fold h in H |- *. fold h'. destruct (cl_ok h (nw_closed _ Hw) (tn_begin t) (nw_begin _ Hw)) as (Eb & Hb & _).
    rewrite Eb in H. simpl in H. rewrite (pl_begin _ _ _ HP). destruct (cl_ok h' (nw_closed _ Hw') (f (tn_begin t)) (place_lt _ (nw_begin _ Hw))) as (Eb' & _). rewrite Eb'. rewrite cl_ren by apply Hw. simpl.
    destruct (loop (dfa_step h) fuel (mk_dstate [[]] [(cl h (tn_begin t), 0)] [cl h (tn_begin t)] [])) as [st| |] eqn:El; simpl in H; try discriminate.
    assert (Hs : st_ok (mk_dstate [[]] [(cl h (tn_begin t), 0)] [cl h (tn_begin t)] [])).
    { split; simpl; [constructor; auto; constructor|]. constructor; [|constructor]. split; auto. intros x Hx. eapply cl_in; eauto; apply Hw. }
    pose proof (loop_ren _ _ _ Hs El) as El'. unfold renS in El' at 1. cbn [ds_nodes ds_ref ds_q ds_done renT map fst snd] in El'. rewrite El'. simpl.
    assert (dec : forall a b : list nat * nat, {a = b} + {a <> b}) by (decide equality; [apply Nat.eq_dec|apply list_eq_dec, Nat.eq_dec]).
    exists (fun l => if list_eq_dec dec l (renT f (ds_ref st)) then renT f (order (ds_ref st)) else l). split.
    - intros l. destruct (list_eq_dec dec l (renT f (ds_ref st))) as [->|]; [apply Permutation_map, Ho|apply Permutation_refl].
    - destruct (list_eq_dec dec (renT f (ds_ref st)) (renT f (ds_ref st))); [|congruence]. rewrite (pl_end _ _ _ HP), (mark_ren f Pinj). exact H.
  Qed.
End Placed.
