(** When the hash seed cannot matter: a decidable condition on the automaton under which the keys
    of minify's hash table that compare equal are equal, so that a dishonest table acts like an
    honest one. *)
From Coq Require Import Bool.
From Verif Require Import Lib Hir NfaPath NfaSem NfaModel NfaProofs TokNfa DfaModel DfaEdges DfaProofs DfaTop MinModel MinProofs MinTop TokModel TokSpec TokProofs TokTop TokMore.

(** ** Equality of keys *)
Fixpoint same_key (k1 k2 : ckey) : bool :=
  match k1, k2 with
  | [], [] => true
  | (r1, v1) :: k1', (r2, v2) :: k2' => N.eqb (fst r1) (fst r2) && N.eqb (snd r1) (snd r2) && Nat.eqb v1 v2 && same_key k1' k2'
  | _, _ => false
  end.
Lemma same_key_eq k1 : forall k2, same_key k1 k2 = true <-> k1 = k2.
Proof.
  induction k1 as [|[[a b] v] k1 IH]; intros [|[[a' b'] v'] k2]; simpl; try (split; congruence).
  rewrite !andb_true_iff, IH, !N.eqb_eq, Nat.eqb_eq. split; [intros [[[-> ->] ->] ->]; auto|intros H; inversion H; auto].
Qed.

(** the same hash tables, but never confusing two keys *)
Definition strict (o : hash_oracle) : hash_oracle :=
  mk_oracle (o_set o) (o_split o) (fun it n k k' => o_probe o it n k k' && same_key k k') (o_rep o).
Definition strict_env (e : build_env) : build_env := mk_env (be_order e) (strict (be_min e)).
Lemma strict_ok o : oracle_ok o -> oracle_ok (strict o).
Proof.
  intros [A B C D]. split; auto. intros it n k. cbn [o_probe strict]. rewrite C. simpl. apply same_key_eq. reflexivity.
Qed.
Lemma strict_honest o : honest (strict o).
Proof. intros it n k k' H _. apply andb_true_iff in H as [_ H]. apply same_key_eq. auto. Qed.

(** ** Automata whose keys are never confused *)
Definition tame (nodes : list dnode) : Prop :=
  forall g i j ni nj ki kj, nth_error nodes i = Some ni -> nth_error nodes j = Some nj -> compress g ni = Ok ki -> compress g nj = Ok kj ->
    key_eq ki kj = true -> ki = kj.

Section Tame.
  Variable o : hash_oracle.
  Variable nodes : list dnode.
  Hypothesis Ht : tame nodes.
  Definition is_key (g : list nat) (k : ckey) : Prop := exists i nd, nth_error nodes i = Some nd /\ compress g nd = Ok k.

  Lemma add_strict g it n0 k n l : is_key g k -> Forall (fun e => is_key g (fst e)) l ->
    add_split (o_probe (strict o) it n0) k n l = add_split (o_probe o it n0) k n l /\ Forall (fun e => is_key g (fst e)) (add_split (o_probe o it n0) k n l).
  Proof.
    intros Hk. induction l as [|[k' s] l IH]; intros Hl; cbn [add_split]; [split; auto|]. inversion Hl as [|x l' H1 H2]; subst. destruct (IH H2) as [I1 I2].
    cbn [o_probe strict]. destruct (key_eq k k') eqn:Ee.
    - destruct Hk as (i & nd & A1 & A2). destruct H1 as (j & nd' & B1 & B2). pose proof (Ht g i j nd nd' k k' A1 B1 A2 B2 Ee) as <-.
      assert (Es : same_key k k = true) by (apply same_key_eq; auto). rewrite Es, !andb_true_r.
      destruct (o_probe o it n0 k k); (split; [|constructor; auto; exists j, nd'; auto]); auto. f_equal. exact I1.
    - rewrite !andb_false_r. split; [f_equal; exact I1|]. constructor; auto.
  Qed.
  Lemma split_strict it gi g set : split_set (strict o) it gi nodes g set = split_set o it gi nodes g set.
  Proof.
    unfold split_set. cbn [o_set strict]. generalize (o_set o it gi set). intros l.
    assert (G : forall sp, Forall (fun e => is_key g (fst e)) sp -> foldM (split_one (strict o) it nodes g) l sp = foldM (split_one o it nodes g) l sp).
    { induction l as [|n l IH]; intros sp Hsp; cbn [foldM]; auto. unfold split_one at 1 3.
      destruct (nth_error nodes n) as [nd|] eqn:En; cbn [of_opt bind]; auto. destruct (compress g nd) as [k| |] eqn:Ek; cbn [bind]; auto.
      destruct (add_strict g it n k n sp) as [H1 H2]; [exists n, nd; auto|auto|]. rewrite H1. apply IH. auto. }
    apply G. constructor.
  Qed.
  Lemma step_strict st : min_step (strict o) nodes st = min_step o nodes st.
  Proof.
    unfold min_step. generalize (combine (seq 0 (length (group_sets (ms_g st)))) (group_sets (ms_g st))). intros l.
    assert (G : forall x, foldM (group_step (strict o) (ms_it st) nodes (ms_g st)) l x = foldM (group_step o (ms_it st) nodes (ms_g st)) l x).
    { induction l as [|y l IH]; intros [[a b] c]; cbn [foldM]; auto. unfold group_step at 1 3. rewrite split_strict.
      destruct (split_set o (ms_it st) (fst y) nodes (ms_g st) (snd y)) as [sp| |]; cbn [bind]; auto. cbn [o_split strict].
      destruct (fold_left label_one _ (a, b)) as [new' mx']. cbn [bind]. apply IH. }
    rewrite G. reflexivity.
  Qed.
  Lemma loop_strict fuel : forall st, loop (min_step (strict o) nodes) fuel st = loop (min_step o nodes) fuel st.
  Proof. induction fuel as [|fuel IH]; intros st; cbn [loop]; auto. rewrite step_strict. destruct (min_step o nodes st); auto. Qed.
End Tame.
Lemma minify_strict o d : tame (d_nodes d) -> minify (strict o) d = minify o d.
Proof. intros Ht. unfold minify. rewrite (loop_strict o _ Ht). reflexivity. Qed.

(** ** A decidable condition *)
Definition has_c (c : N) (nd : dnode) : bool := match lookup c nd with Some _ => true | None => false end.
(** where a run of characters ends in [a], no common run goes on in [b] *)
Definition ends_ok (a b : dnode) : bool :=
  forallb (fun x => has_c (snd (fst x)) a || negb (has_c (N.pred (snd (fst x))) b && has_c (snd (fst x)) b)) a.
(** the two nodes differ at their first characters, or every common run ends at the same place *)
Definition apart (a b : dnode) : bool :=
  match a, b with
  | (r1, _) :: _, (r2, _) :: _ => negb (N.eqb (fst r1) (fst r2)) || (ends_ok a b && ends_ok b a)
  | _, _ => true
  end.
Definition safe_nodes (nodes : list dnode) : bool := forallb (fun a => forallb (apart a) nodes) nodes.

Lemma compress_lt g nd k : compress g nd = Ok k -> forall r j, In (r, j) nd -> j < length g.
Proof.
  unfold compress. assert (G : forall st st', foldM (compress_step g) nd st = Ok st' -> forall r j, In (r, j) nd -> j < length g).
  { induction nd as [|[r0 j0] nd IH]; intros st st' H r j Hin; [destruct Hin|]. cbn [foldM] in H. unfold compress_step at 1 in H.
    destruct (nth_error g j0) as [v|] eqn:Ev; cbn [of_opt bind] in H; [|discriminate].
    destruct Hin as [E0|Hin]; [injection E0 as <- <-; apply nth_error_Some; congruence|].
    match type of H with bind (bind ?x ?f) ?h = _ => destruct (bind x f) as [st1| |] eqn:Es; cbn [bind] in H; try discriminate; apply (IH _ _ H r j Hin) end. }
  destruct (foldM (compress_step g) nd (mk_cstate None None None [])) as [st| |] eqn:E; cbn [bind]; try discriminate. intros _. eapply G; eauto.
Qed.

(** the first pair of pieces of two keys that differ, although the keys compare equal *)
Lemma key_differ_at (k1 : ckey) : forall k2, ranges_ok k1 -> ranges_ok k2 -> gaps k1 -> gaps k2 -> key_eq k1 k2 = true -> k1 <> k2 ->
  exists b e e' v, ((In ((b, e), v) k1 /\ In ((b, e'), v) k2 /\ lookup e k1 = None) \/ (In ((b, e), v) k2 /\ In ((b, e'), v) k1 /\ lookup e k2 = None)) /\ (b < e)%N /\ (e < e')%N.
Proof.
  induction k1 as [|[[s1 e1] v1] k1 IH]; intros [|[[s2 e2] v2] k2] R1 R2 G1 G2 Hk Hn; try discriminate; [congruence|].
  cbn [key_eq fst] in Hk. apply andb_true_iff in Hk as [Hk Hk2]. apply andb_true_iff in Hk as [Hs Hv]. apply N.eqb_eq in Hs. apply Nat.eqb_eq in Hv. subst s2 v2.
  assert (L1 : (s1 < e1)%N) by (destruct R1 as [R _]; inversion R; auto).
  assert (L2 : (s1 < e2)%N) by (destruct R2 as [R _]; inversion R; auto).
  (* the end of the shorter one is not the start of the next *)
  assert (Hend : forall s e e' v (k k' : ckey), ranges_ok (((s, e), v) :: k) -> ranges_ok (((s, e'), v) :: k') -> key_eq k k' = true -> (s < e)%N -> (e < e')%N ->
    lookup e (((s, e), v) :: k) = None).
  { clear. intros s e e' v k k' R R' Hk L1 L. rewrite lookup_cons_out; [|auto|intros [_ Hx]; simpl in Hx; lia].
    destruct k as [|[[a b] u] k]; [reflexivity|]. apply lookup_before; [eapply ranges_ok_tl; eauto|]. cbn [fst].
    destruct k' as [|[[a' b'] u'] k']; [discriminate|]. cbn [key_eq fst] in Hk. apply andb_true_iff in Hk as [Hk _]. apply andb_true_iff in Hk as [Hs _]. apply N.eqb_eq in Hs. subst a'.
    destruct R' as [_ R']. inversion R' as [|? ? _ Hf]; subst. inversion Hf; subst. cbn [fst snd] in *. lia. }
  destruct (N.lt_trichotomy e1 e2) as [Hlt|[->|Hgt]].
  - exists s1, e1, e2, v1. split; [left|split; auto]. split; [simpl; auto|]. split; [simpl; auto|]. eapply Hend; eauto.
  - assert (Hn' : k1 <> k2) by congruence.
    assert (Gt : forall x (k : ckey), gaps (x :: k) -> gaps k) by (clear; intros x [|y k]; simpl; tauto).
    destruct (IH k2 (ranges_ok_tl _ _ R1) (ranges_ok_tl _ _ R2) (Gt _ _ G1) (Gt _ _ G2) Hk2 Hn') as (b & e & e' & v & H & Hb & He).
    exists b, e, e', v. split; [|split; auto].
    assert (Hout : forall k, ranges_ok (((s1, e2), v1) :: k) -> (exists x, In ((b, x), v) k /\ (b < x)%N) -> (e2 <= b)%N).
    { clear. intros k [_ R] (x & Hin & _). inversion R as [|? ? _ Hf]; subst. rewrite Forall_forall in Hf. specialize (Hf _ Hin). exact Hf. }
    destruct H as [(H1 & H2 & H3)|(H1 & H2 & H3)]; [left|right]; (split; [simpl; auto|]); (split; [simpl; auto|]); rewrite lookup_cons_out; auto;
      intros [_ Hx]; cbn [snd] in Hx; [specialize (Hout k1 R1 (ex_intro _ e (conj H1 Hb)))|specialize (Hout k2 R2 (ex_intro _ e (conj H1 Hb)))]; lia.
  - exists s1, e2, e1, v1. split; [right|split; auto]. split; [simpl; auto|]. split; [simpl; auto|]. apply (Hend s1 e2 e1 v1 k2 k1); auto.
    clear - Hk2. revert k2 Hk2. induction k1 as [|[r v] k1 IH]; intros [|[r' v'] k2]; simpl; auto. rewrite !andb_true_iff, !N.eqb_eq, !Nat.eqb_eq. intros [[-> ->] H]. auto.
Qed.

Lemma lookup_in (k : ckey) b e v c : ranges_ok k -> In ((b, e), v) k -> (b <= c < e)%N -> lookup c k = Some v.
Proof. intros R Hin Hc. apply lookup_spec; auto. exists (b, e). split; auto. Qed.
Lemma has_val g nd c : has_c c nd = match cval g nd c with Some _ => true | None => false end.
Proof. unfold has_c, cval. destruct (lookup c nd); reflexivity. Qed.

Lemma ends_bad g a b ka kb b0 e e' v : ranges_ok a -> ranges_ok ka -> ranges_ok kb -> (forall c, lookup c ka = cval g a c) -> (forall c, lookup c kb = cval g b c) ->
  In ((b0, e), v) ka -> In ((b0, e'), v) kb -> lookup e ka = None -> (b0 < e)%N -> (e < e')%N -> ends_ok a b = false.
Proof.
  intros Ra Rka Rkb La Lb Ha Hb Hn L1 L2. destruct (ends_ok a b) eqn:E; auto. exfalso. unfold ends_ok in E. rewrite forallb_forall in E.
  assert (Hp : lookup (N.pred e) ka = Some v) by (eapply lookup_in; eauto; lia). rewrite La in Hp. unfold cval in Hp.
  destruct (lookup (N.pred e) a) as [j|] eqn:El; [|discriminate]. apply lookup_spec in El as ([s t] & Hin & [H1 H2]); auto. cbn [fst snd] in *.
  assert (t = e).
  { rewrite La in Hn. unfold cval in Hn. destruct (lookup e a) as [j'|] eqn:El'; [discriminate|]. destruct (N.eq_dec t e); auto. exfalso.
    pose proof (proj1 (lookup_None e a Ra) El' (s, t) j Hin) as Hc. apply Hc. split; cbn [fst snd]; lia. }
  subst t. specialize (E _ Hin). cbn [fst snd] in E. rewrite !(has_val g), <- La, <- !Lb, Hn in E. cbn [orb] in E.
  rewrite (lookup_in kb b0 e' v (N.pred e) Rkb Hb), (lookup_in kb b0 e' v e Rkb Hb) in E by lia. discriminate.
Qed.

Lemma first_same g (a b : dnode) (ka kb : ckey) ra ja la rb jb lb : ranges_ok a -> ranges_ok b -> ranges_ok ka -> ranges_ok kb ->
  (forall c, lookup c ka = cval g a c) -> (forall c, lookup c kb = cval g b c) -> key_eq ka kb = true ->
  a = (ra, ja) :: la -> b = (rb, jb) :: lb -> fst ra = fst rb.
Proof.
  intros Ra Rb Rka Rkb La Lb Hk -> ->.
  assert (G : forall (r : crange) j l (k : ckey), ranges_ok ((r, j) :: l) -> ranges_ok k -> (forall c, lookup c k = cval g ((r, j) :: l) c) ->
    exists e v k', k = ((fst r, e), v) :: k').
  { clear. intros [s t] j l k R Rk L. assert (Lst : (s < t)%N) by (destruct R as [R _]; inversion R; auto).
    destruct k as [|[[s' t'] v] k].
    { exfalso. specialize (L s). unfold cval in L. rewrite lookup_cons_in in L; auto; [discriminate|split; simpl; lia]. }
    assert (Lst' : (s' < t')%N) by (destruct Rk as [Rk' _]; inversion Rk'; auto).
    destruct (N.lt_trichotomy s s') as [H|[->|H]].
    - exfalso. specialize (L s). rewrite lookup_before in L; auto. unfold cval in L. rewrite lookup_cons_in in L; auto; [discriminate|split; simpl; lia].
    - simpl. eauto.
    - exfalso. specialize (L s'). rewrite lookup_cons_in in L; auto; [|split; simpl; lia]. unfold cval in L. rewrite lookup_before in L; auto. discriminate. }
  destruct (G _ _ _ _ Ra Rka La) as (e1 & v1 & k1 & ->). destruct (G _ _ _ _ Rb Rkb Lb) as (e2 & v2 & k2 & ->).
  cbn [key_eq fst] in Hk. apply andb_true_iff in Hk as [Hk _]. apply andb_true_iff in Hk as [Hk _]. apply N.eqb_eq in Hk. exact Hk.
Qed.

Lemma safe_tame nodes : (forall i nd, nth_error nodes i = Some nd -> ranges_ok nd) -> safe_nodes nodes = true -> tame nodes.
Proof.
  intros Hr Hs g i j ni nj ki kj Hi Hj Ei Ej Hk.
  destruct (compress_ok g ni (Hr _ _ Hi) (compress_lt _ _ _ Ei)) as (k1 & E1 & [R1 G1] & L1 & _).
  destruct (compress_ok g nj (Hr _ _ Hj) (compress_lt _ _ _ Ej)) as (k2 & E2 & [R2 G2] & L2 & _).
  rewrite Ei in E1. injection E1 as <-. rewrite Ej in E2. injection E2 as <-.
  destruct (same_key ki kj) eqn:Es; [apply same_key_eq; auto|]. exfalso.
  assert (Hne : ki <> kj) by (intros H; apply same_key_eq in H; congruence).
  destruct (key_differ_at ki kj R1 R2 G1 G2 Hk Hne) as (b & e & e' & v & H & Hb & He).
  unfold safe_nodes in Hs. rewrite forallb_forall in Hs. specialize (Hs ni (nth_error_In _ _ Hi)). rewrite forallb_forall in Hs. specialize (Hs nj (nth_error_In _ _ Hj)).
  assert (Hne2 : ends_ok ni nj && ends_ok nj ni = false).
  { destruct H as [(H1 & H2 & H3)|(H1 & H2 & H3)].
    - rewrite (ends_bad g ni nj ki kj b e e' v); auto. apply Hr with i; auto.
    - rewrite (ends_bad g nj ni kj ki b e e' v); auto; [apply andb_false_r|apply Hr with j; auto]. }
  destruct ni as [|[ra ja] la], nj as [|[rb jb] lb]; cbn [apart] in Hs.
  - vm_compute in Ei, Ej. congruence.
  - unfold ends_ok in Hne2. cbn [forallb andb] in Hne2. assert (ki = []) by (vm_compute in Ei; congruence). subst ki.
    destruct H as [([] & _)|(_ & [] & _)].
  - assert (kj = []) by (vm_compute in Ej; congruence). subst kj. destruct H as [(_ & [] & _)|([] & _)].
  - rewrite Hne2, orb_false_r in Hs. pose proof (first_same g _ _ ki kj ra ja la rb jb lb (Hr _ _ Hi) (Hr _ _ Hj) R1 R2 L1 L2 Hk eq_refl eq_refl) as Hf.
    rewrite Hf, N.eqb_refl in Hs. discriminate.
Qed.

(** ** Patterns *)
(** the condition for a list of expressions; [fuel] bounds the number of states *)
Definition seed_safe (fuel : nat) (hirs : list hir) : bool :=
  match tnfa_of hirs with
  | NOk nf => match dfa_of (fun l => l) fuel nf with Ok (d, _) => safe_nodes (d_nodes d) | _ => false end
  | _ => false
  end.

Lemma dfa_nodes order order' fuel fuel' nf d ws d' ws' : dfa_of order fuel nf = Ok (d, ws) -> dfa_of order' fuel' nf = Ok (d', ws') -> d_nodes d = d_nodes d'.
Proof.
  unfold dfa_of. destruct (eps_rec (tn_nodes nf) (tn_begin nf)) as [b| |]; cbn [bind]; try discriminate.
  destruct (loop (dfa_step (tn_nodes nf)) fuel (mk_dstate [[]] [(b, 0)] [b] [])) as [st| |] eqn:E1; cbn [bind]; try discriminate.
  destruct (loop (dfa_step (tn_nodes nf)) fuel' (mk_dstate [[]] [(b, 0)] [b] [])) as [st'| |] eqn:E2; cbn [bind]; try discriminate.
  assert (st = st').
  { assert (F1 : loop (dfa_step (tn_nodes nf)) (max fuel fuel') (mk_dstate [[]] [(b, 0)] [b] []) = Ok st) by (eapply loop_mono; [exact E1|discriminate|lia]).
    assert (F2 : loop (dfa_step (tn_nodes nf)) (max fuel fuel') (mk_dstate [[]] [(b, 0)] [b] []) = Ok st') by (eapply loop_mono; [exact E2|discriminate|lia]). congruence. }
  subst st'. destruct (mark_all (tn_end nf) (order _)) as [en w1]. destruct (mark_all (tn_end nf) (order' _)) as [en' w1'].
  intros H1 H2. injection H1 as <- _. injection H2 as <- _. reflexivity.
Qed.

Section Build.
  Context {E T P PErr : Type}.
  Variable parse : P -> hir + PErr.
  Hypothesis Hwf : forall p h, parse p = inl h -> wf_hir h.
  Lemma build_strict env fuel k (ps : list (P * (list N -> list T -> E))) hirs :
    Forall2 (fun x h => parse (fst x) = inl h) ps hirs -> env_ok env -> seed_safe k hirs = true -> build P PErr parse (strict_env env) fuel ps = build P PErr parse env fuel ps.
  Proof.
    intros Hp [He _] Hs. unfold build. rewrite split_map.
    assert (Hall : parse_all P PErr parse (map fst ps) = inl hirs).
    { clear Hs. induction Hp as [|x h l hs Hx Hl IH]; simpl; auto. rewrite Hx, IH. reflexivity. }
    assert (Hw : Forall wf_hir hirs) by (clear Hall Hs; induction Hp as [|x h l hs Hx Hl IH]; constructor; auto; eapply Hwf; eauto).
    rewrite Hall. unfold seed_safe in Hs. destruct (tnfa_of hirs) as [nf|e|] eqn:En; auto. cbn [be_order strict_env be_min].
    destruct (dfa_of (be_order env) fuel nf) as [[d ws]| |] eqn:Ed; auto. cbn [bind].
    destruct (dfa_of (fun l => l) k nf) as [[d0 ws0]| |] eqn:Ed0; try discriminate. rewrite (dfa_nodes _ _ _ _ _ _ _ _ _ Ed0 Ed) in Hs.
    rewrite minify_strict; auto. apply safe_tame; auto.
    destruct (tnfa_of_spec hirs Hw) as [(nf' & En' & Hg)|(i & h & e & En' & _)]; [|congruence]. assert (nf' = nf) by congruence. subst nf'.
    destruct (dfa_of_spec hirs nf Hg) as (F & nodes & HF). destruct (HF (be_order env) (max F fuel) He (Nat.le_max_l _ _)) as (en & ws' & Ed' & Hgood & _).
    rewrite (dfa_of_mono _ _ _ _ _ Ed (Nat.le_max_r F fuel)) in Ed'. injection Ed' as -> _. apply Hgood.
  Qed.
End Build.
Lemma strict_env_ok e : env_ok e -> env_ok (strict_env e).
Proof. intros [A B]. split; auto. apply strict_ok. auto. Qed.
Lemma strict_env_honest e : env_honest (strict_env e).
Proof. apply strict_honest. Qed.
