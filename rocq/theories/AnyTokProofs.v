(** Proofs about TokenizeIterator with any tokenizer. *)
From Coq Require Import List Arith Lia NArith.
From Verif Require Import Lib Hir NfaPath NfaSem NfaModel NfaProofs TokNfa DfaModel DfaEdges DfaProofs DfaTop MinModel MinProofs MinTop TokModel TokSpec TokProofs TokTop TokMore PullModel PullSpec PullProofs AnyTokModel AnyTokSpec.
Import ListNotations.

Section Looks.
  Context {T W : Type} (pull : W -> res (option T) * W) (mapf : T -> W -> res N * W).
  Lemma looks_snoc q w l cs q1 w1 x q2 w2 c w3 : looks pull mapf q w l cs q1 w1 -> takes pull q1 w1 x q2 w2 -> mapf x w2 = (Ok c, w3) ->
    looks pull mapf q w (l ++ [x]) (cs ++ [c]) q2 w3.
  Proof.
    intros H Ht Hm. induction H as [q w|y q w d w1 l cs q' w' Hd H IH|y w w1 d w2' l cs q' w' Hp Hd H IH]; simpl.
    - destruct Ht as [[-> ->]|(-> & -> & Hp)]; [eapply looks_back|eapply looks_new]; eauto; constructor.
    - eapply looks_back; eauto.
    - eapply looks_new; eauto.
  Qed.
  Lemma looks_len q w l cs q1 w1 : looks pull mapf q w l cs q1 w1 -> length cs = length l.
  Proof. induction 1; simpl; auto. Qed.
  Lemma apop_cases q w : match apop pull q w with
    | (Ok (Some x), (q', w')) => takes pull q w x q' w'
    | (r, (q', w')) => q = [] /\ q' = [] /\ pull w = (r, w')
    end.
  Proof. unfold apop, takes. destruct q as [|x q]; [destruct (pull w) as [[[x|]| |] w']|]; auto. Qed.
End Looks.

Section Language.
  Context {E T W : Type} (I : implementation E T W).
  Lemma snoc_inj (cs : list N) c cs' c' : cs ++ [c] = cs' ++ [c'] -> cs = cs' /\ c = c'.
  Proof. apply app_inj_tail. Qed.
  Lemma walk_det cs n : walk I cs n -> forall n', walk I cs n' -> n = n'.
  Proof.
    induction 1 as [b Hb|cs n c n1 H IH Hn]; intros n' H'; inversion H' as [b' Hb' Ec|cs' m c' m1 Hc' Hn' Ec]; try congruence.
    - destruct cs'; discriminate.
    - destruct cs; discriminate.
    - apply snoc_inj in Ec as [-> ->]. rewrite (IH _ Hc') in Hn. congruence.
  Qed.
  Lemma walk_prefix cs n : walk I cs n -> forall k, exists m, walk I (firstn k cs) m.
  Proof.
    induction 1 as [b Hb|cs n c n1 H IH Hn]; intros k.
    - rewrite firstn_nil. exists b. constructor. auto.
    - destruct (Nat.le_gt_cases k (length cs)) as [Hk|Hk].
      + rewrite firstn_snoc by auto. apply IH.
      + rewrite firstn_all2 by (rewrite app_length; simpl; lia). exists n1. econstructor; eauto.
  Qed.
  Lemma walk_snoc_inv cs c n : walk I (cs ++ [c]) n -> exists m, walk I cs m /\ im_next I m c = Ok (Some n).
  Proof. inversion 1 as [b Hb Ec|cs' m c' m1 Hc' Hn' Ec]; [destruct cs; discriminate|]. apply snoc_inj in Ec as [-> ->]. eauto. Qed.

  (** the best among the prefixes *)
  Definition abest (cs : list N) (pat : option nat) (len : nat) : Prop :=
    match pat with Some p => longest_in I cs len p | None => none_in I cs end.
  Lemma abest_more cs c pat len : abest cs pat len -> (forall p, ~ im_accepts I (cs ++ [c]) p) -> abest (cs ++ [c]) pat len.
  Proof.
    intros H Hno.
    assert (G : forall k p, k <= length (cs ++ [c]) -> (k <= length cs -> ~ im_accepts I (firstn k cs) p) -> ~ im_accepts I (firstn k (cs ++ [c])) p).
    { intros k p Hk Hp. destruct (Nat.le_gt_cases k (length cs)) as [Hl|Hl].
      - rewrite firstn_snoc by auto. auto.
      - rewrite firstn_all2 by (rewrite app_length in *; simpl in *; lia). auto. }
    destruct pat as [p|]; simpl in *.
    - destruct H as (A & B & C). split; [rewrite app_length; lia|]. split; [rewrite firstn_snoc by auto; auto|].
      intros k' p' Hk. apply G; [lia|]. intros. apply C. lia.
    - intros k p Hk. apply G; auto.
  Qed.
  Lemma abest_new cs p : im_accepts I cs p -> abest cs (Some p) (length cs).
  Proof. intros H. split; auto. split; [rewrite firstn_all; auto|]. intros. lia. Qed.
End Language.

Section Next.
  Context {E T W : Type} (pull : W -> res (option T) * W) (mapf : T -> W -> res N * W) (I : implementation E T W).
  Notation looks := (looks pull mapf).
  Notation takes := (takes pull).

  Record ainv (q0 : list T) (w0 : W) (s : ascan T W) : Prop := {
    an_looks : looks q0 w0 (as_items s) (as_chars s) (as_queue s) (as_w s);
    an_walk : walk I (as_chars s) (as_node s);
    an_i : as_i s = length (as_chars s);
    an_best : abest I (as_chars s) (as_pat s) (as_len s) }.

  (** the ways in which a scan ends without a panic, in the state [w]: stuck, or at the end of the input *)
  Definition ended (cs : list N) (q : list T) (w1 w : W) : Prop :=
    (exists cs0 c, cs = cs0 ++ [c] /\ stuck I cs0 c /\ w = w1) \/ ((exists n, walk I cs n) /\ q = [] /\ pull w1 = (Ok None, w)).
  (** the ways in which a scan ends with [r] (a panic, or the lack of an answer) *)
  Definition broken (r : res unit) (q0 : list T) (w0 : W) (q : list T) (w : W) : Prop :=
    exists l cs q1 w1 n, looks q0 w0 l cs q1 w1 /\ walk I cs n /\
      ((q1 = [] /\ q = [] /\ exists r', pull w1 = (r', w) /\ (r' = Panic /\ r = Panic \/ r' = OutOfFuel /\ r = OutOfFuel)) \/
       (exists x w2, takes q1 w1 x q w2 /\ exists r', mapf x w2 = (r', w) /\ (r' = Panic /\ r = Panic \/ r' = OutOfFuel /\ r = OutOfFuel)) \/
       (exists x w2 c, takes q1 w1 x q w2 /\ mapf x w2 = (Ok c, w) /\
          exists r', (im_next I n c = r' /\ (r' = Panic /\ r = Panic \/ r' = OutOfFuel /\ r = OutOfFuel))) \/
       (exists x w2 c n', takes q1 w1 x q w2 /\ mapf x w2 = (Ok c, w) /\ im_next I n c = Ok (Some n') /\
          exists r', (im_accept I n' = r' /\ (r' = Panic /\ r = Panic \/ r' = OutOfFuel /\ r = OutOfFuel)))).

  Lemma astep_ok q0 w0 s : ainv q0 w0 s ->
    match ascan_step pull mapf I s with
    | inl s' => ainv q0 w0 s' /\ length (as_items s') = Datatypes.S (length (as_items s))
    | inr (Ok (Ok _, s')) => exists q1 w1, looks q0 w0 (as_items s') (as_chars s') q1 w1 /\ as_queue s' = q1 /\ ended (as_chars s') q1 w1 (as_w s') /\
        abest I (as_chars s') (as_pat s') (as_len s')
    | inr (Ok (Panic, s')) => broken Panic q0 w0 (as_queue s') (as_w s')
    | inr (Ok (OutOfFuel, s')) => False
    | inr Panic => False
    | inr OutOfFuel => exists q w, broken OutOfFuel q0 w0 q w
    end.
  Proof.
    intros [I1 I2 I3 I4]. unfold ascan_step. pose proof (apop_cases pull (as_queue s) (as_w s)) as Hp.
    destruct (apop pull (as_queue s) (as_w s)) as [[[x|]| |] [q w]].
    - destruct (mapf x w) as [[c| |] w'] eqn:Em.
      2:{ simpl. exists (as_items s), (as_chars s), (as_queue s), (as_w s), (as_node s). split; auto. split; auto. right. left. exists x, w. split; auto. exists Panic. auto. }
      2:{ exists q, w', (as_items s), (as_chars s), (as_queue s), (as_w s), (as_node s). split; auto. split; auto. right. left. exists x, w. split; auto. exists OutOfFuel. auto. }
      pose proof (looks_snoc _ _ _ _ _ _ _ _ _ _ _ _ _ I1 Hp Em) as Hl.
      destruct (im_next I (as_node s) c) as [[n|]| |] eqn:En.
      + assert (Hw : walk I (as_chars s ++ [c]) n) by (econstructor; eauto).
        destruct (im_accept I n) as [[p|]| |] eqn:Ea; cbn [as_items as_chars as_queue as_w as_node as_pat as_len as_i].
        * split; [|rewrite app_length; simpl; lia]. split; cbn [as_items as_chars as_queue as_w as_node as_pat as_len as_i]; auto.
          -- rewrite app_length, I3. simpl. lia.
          -- replace (Datatypes.S (as_i s)) with (length (as_chars s ++ [c])) by (rewrite app_length, I3; simpl; lia). apply abest_new. exists n. auto.
        * split; [|rewrite app_length; simpl; lia]. split; cbn [as_items as_chars as_queue as_w as_node as_pat as_len as_i]; auto.
          -- rewrite app_length, I3. simpl. lia.
          -- apply abest_more; auto. intros p (m & Hm & Ha). rewrite (walk_det _ _ _ Hm _ Hw) in Ha. congruence.
        * exists (as_items s), (as_chars s), (as_queue s), (as_w s), (as_node s). split; auto. split; auto. right. right. right. exists x, w, c, n. simpl. eauto 10.
        * exists q, w', (as_items s), (as_chars s), (as_queue s), (as_w s), (as_node s). split; auto. split; auto. right. right. right. exists x, w, c, n. eauto 10.
      + cbn [as_items as_chars as_queue as_w as_node as_pat as_len as_i]. exists q, w'. split; auto. split; auto. split.
        * left. exists (as_chars s), c. split; auto. split; auto. exists (as_node s). auto.
        * apply abest_more; auto. intros p (m & Hm & Ha). apply walk_snoc_inv in Hm as (m' & Hm' & Hn). rewrite (walk_det _ _ _ Hm' _ I2) in Hn. congruence.
      + exists (as_items s), (as_chars s), (as_queue s), (as_w s), (as_node s). split; auto. split; auto. right. right. left. exists x, w, c. simpl. eauto 10.
      + exists q, w', (as_items s), (as_chars s), (as_queue s), (as_w s), (as_node s). split; auto. split; auto. right. right. left. exists x, w, c. eauto 10.
    - destruct Hp as (Hq & -> & Hp). cbn [as_items as_chars as_queue as_w as_node as_pat as_len as_i]. rewrite Hq in I1. exists [], (as_w s). split; auto. split; auto. split; auto.
      right. eauto.
    - destruct Hp as (Hq & -> & Hp). exists (as_items s), (as_chars s), (as_queue s), (as_w s), (as_node s). split; auto. split; auto. left. simpl. eauto 10.
    - destruct Hp as (Hq & -> & Hp). exists [], w, (as_items s), (as_chars s), (as_queue s), (as_w s), (as_node s). split; auto. split; auto. left. eauto 10.
  Qed.

  Lemma aloop_ok q0 w0 fuel : forall s, ainv q0 w0 s ->
    match loop (ascan_step pull mapf I) fuel s with
    | Ok (Ok _, s') => exists q1 w1, looks q0 w0 (as_items s') (as_chars s') q1 w1 /\ as_queue s' = q1 /\ ended (as_chars s') q1 w1 (as_w s') /\
        abest I (as_chars s') (as_pat s') (as_len s')
    | Ok (Panic, s') => broken Panic q0 w0 (as_queue s') (as_w s')
    | Ok (OutOfFuel, s') => False
    | Panic => False
    | OutOfFuel => (exists q w, broken OutOfFuel q0 w0 q w) \/ (exists l cs q1 w1, looks q0 w0 l cs q1 w1 /\ length l = fuel + length (as_items s))
    end.
  Proof.
    induction fuel as [|fuel IH]; intros s Hi; cbn [loop].
    - right. exists (as_items s), (as_chars s), (as_queue s), (as_w s). split; auto. apply Hi.
    - pose proof (astep_ok q0 w0 s Hi) as H. destruct (ascan_step pull mapf I s) as [s'|[[[u| |] s']| |]]; auto.
      destruct H as [H Hl]. specialize (IH s' H). destruct (loop (ascan_step pull mapf I) fuel s') as [[[u| |] s'']| |]; auto.
      destruct IH as [IH|(l & cs & q1 & w1 & A & B)]; auto. right. exists l, cs, q1, w1. split; auto. rewrite B, Hl. lia.
  Qed.

  (** what a call of [next] does *)
  Lemma anext_ok fuel q w : let (r, st) := anext pull mapf I fuel (q, w) in let (q', w') := st in
    match r with
    | Ok o => exists l cs q1 w1 w2, looks q w l cs q1 w1 /\ ended cs q1 w1 w2 /\
        match o with
        | Some e => exists k p, longest_in I cs k p /\ im_make I p (firstn k cs) (firstn k l) w2 = (Ok e, w') /\ q' = skipn k l ++ q1
        | None => none_in I cs /\ q' = q1 /\ w' = w2
        end
    | Panic => (q' = q /\ w' = w /\ (im_begin I = Panic \/ exists b, im_begin I = Ok b /\ im_accept I b = Panic)) \/ broken Panic q w q' w' \/
        exists l cs q1 w1 w2 k p, looks q w l cs q1 w1 /\ ended cs q1 w1 w2 /\ longest_in I cs k p /\ im_make I p (firstn k cs) (firstn k l) w2 = (Panic, w') /\ q' = skipn k l ++ q1
    | OutOfFuel => im_begin I = OutOfFuel \/ (exists b, im_begin I = Ok b /\ im_accept I b = OutOfFuel) \/ (exists q2 w2, broken OutOfFuel q w q2 w2) \/
        (exists l cs q1 w1 w2 k p, looks q w l cs q1 w1 /\ ended cs q1 w1 w2 /\ longest_in I cs k p /\ im_make I p (firstn k cs) (firstn k l) w2 = (OutOfFuel, w')) \/
        (exists l cs q1 w1, looks q w l cs q1 w1 /\ length l = fuel)
    end.
  Proof.
    unfold anext. destruct (im_begin I) as [b| |] eqn:Eb; auto. destruct (im_accept I b) as [a| |] eqn:Ea.
    2:{ left. eauto 10. } 2:{ right. left. eauto. }
    assert (Hi : ainv q w (mk_ascan b a 0 0 [] [] q w)).
    { assert (Hw : walk I [] b) by (constructor; auto). split; cbn [as_items as_chars as_queue as_w as_node as_pat as_len as_i]; auto; [constructor|].
      destruct a as [p|]; simpl.
      - apply (abest_new I [] p). exists b. auto.
      - intros k p Hk (n & Hn & Hacc). rewrite firstn_nil in Hn. rewrite (walk_det _ _ _ Hn _ Hw) in Hacc. congruence. }
    pose proof (aloop_ok q w fuel _ Hi) as H. destruct (loop (ascan_step pull mapf I) fuel (mk_ascan b a 0 0 [] [] q w)) as [[[u| |] s]| |]; auto.
    - destruct H as (q1 & w1 & H1 & H2 & H3 & H4). destruct (as_pat s) as [p|].
      + simpl in H4. rewrite give_back_spec by (rewrite <- (looks_len _ _ _ _ _ _ _ _ H1); apply H4). rewrite rev_involutive.
        destruct (im_make I p (firstn (as_len s) (as_chars s)) (firstn (as_len s) (as_items s)) (as_w s)) as [[e| |] w'] eqn:Em; cbn [bind]; try rewrite H2.
        * exists (as_items s), (as_chars s), q1, w1, (as_w s). eauto 10.
        * right. right. exists (as_items s), (as_chars s), q1, w1, (as_w s), (as_len s), p. auto 10.
        * right. right. right. left. exists (as_items s), (as_chars s), q1, w1, (as_w s), (as_len s), p. auto 10.
      + exists (as_items s), (as_chars s), q1, w1, (as_w s). auto.
    - contradiction.
    - contradiction.
    - right. right. destruct H as [H|(l & cs & q1 & w1 & A & B)]; auto. right. right. exists l, cs, q1, w1. simpl in B. rewrite Nat.add_0_r in B. auto.
  Qed.
End Next.

(** ** DFATokenizer *)
Section Dfa.
  Context {E T S M : Type} (pull : S -> res (option T * S)) (mapf : M -> T -> res (N * M)) (t : tokenizer E T).
  Definition to_gscan (s : ascan T (S * M)) : gscan T S M :=
    mk_gscan (as_node s) (as_pat s) (as_len s) (as_i s) (as_items s) (as_chars s) (mk_giter (fst (as_w s)) (as_queue s) (snd (as_w s))).
  Definition to_gres (r : res (res unit * ascan T (S * M))) : res (gscan T S M) :=
    match r with Ok (Ok _, s) => Ok (to_gscan s) | Ok (Panic, _) => Panic | Ok (OutOfFuel, _) => OutOfFuel | Panic => Panic | OutOfFuel => OutOfFuel end.
  Lemma dfa_step_same s : gscan_step pull mapf t (to_gscan s) =
    match ascan_step (pull_fst pull) (map_snd mapf) (dfa_impl t) s with inl s' => inl (to_gscan s') | inr r => inr (to_gres r) end.
  Proof.
    destruct s as [n p len i items chars q [src m]].
    unfold gscan_step, ascan_step, to_gscan, gpop, apop, pull_fst, map_snd, dfa_impl.
    cbn [as_node as_pat as_len as_i as_items as_chars as_queue as_w fst snd gs_node gs_pat gs_len gs_i gs_items gs_chars gs_src gi_src gi_queue gi_map im_begin im_accept im_next im_make].
    destruct q as [|x q]; cbn [as_node as_pat as_len as_i as_items as_chars as_queue as_w fst snd gs_node gs_pat gs_len gs_i gs_items gs_chars gs_src gi_src gi_queue gi_map].
    - destruct (pull src) as [[[x|] src']| |]; cbn [bind fst snd gi_src gi_queue gi_map]; auto.
      destruct (mapf m x) as [[c m']| |]; auto. destruct (next_node t n c) as [[n'|]| |]; auto. destruct (accept_index t n'); auto.
    - destruct (mapf m x) as [[c m']| |]; auto. destruct (next_node t n c) as [[n'|]| |]; auto. destruct (accept_index t n'); auto.
  Qed.
  Lemma dfa_loop_same fuel : forall s, loop (gscan_step pull mapf t) fuel (to_gscan s) = to_gres (loop (ascan_step (pull_fst pull) (map_snd mapf) (dfa_impl t)) fuel s).
  Proof.
    induction fuel as [|fuel IH]; intros s; cbn [loop]; auto. rewrite dfa_step_same.
    destruct (ascan_step (pull_fst pull) (map_snd mapf) (dfa_impl t) s) as [s'|r]; auto.
  Qed.
  Lemma step_no_fuel I (s : ascan T (S * M)) s' : ascan_step (E := E) (pull_fst pull) (map_snd mapf) I s <> inr (Ok (OutOfFuel, s')) /\ ascan_step (E := E) (pull_fst pull) (map_snd mapf) I s <> inr Panic.
  Proof.
    unfold ascan_step. destruct (apop (pull_fst pull) (as_queue s) (as_w s)) as [[[x|]| |] [q w]]; try (split; discriminate).
    destruct (map_snd mapf x w) as [[c| |] w']; try (split; discriminate). destruct (im_next I (as_node s) c) as [[n|]| |]; try (split; discriminate).
    destruct (im_accept I n) as [[p|]| |]; split; discriminate.
  Qed.
  Lemma loop_no_fuel I fuel : forall (s : ascan T (S * M)) s', loop (ascan_step (E := E) (pull_fst pull) (map_snd mapf) I) fuel s <> Ok (OutOfFuel, s') /\ loop (ascan_step (E := E) (pull_fst pull) (map_snd mapf) I) fuel s <> Panic.
  Proof.
    induction fuel as [|fuel IH]; intros s s'; cbn [loop]; [split; discriminate|].
    destruct (step_no_fuel I s s') as [A B]. destruct (ascan_step (pull_fst pull) (map_snd mapf) I s) as [s1|r]; auto. split; congruence.
  Qed.

  Lemma dfa_next_same fuel src q m : gnext pull mapf t fuel (mk_giter src q m) =
    match anext (pull_fst pull) (map_snd mapf) (dfa_impl t) fuel (q, (src, m)) with
    | (Ok o, (q', (src', m'))) => Ok (o, mk_giter src' q' m')
    | (Panic, _) => Panic
    | (OutOfFuel, _) => OutOfFuel
    end.
  Proof.
    unfold gnext, anext. cbn [dfa_impl im_begin im_accept].
    change (mk_gscan (tk_begin t) (accept_index t (tk_begin t)) 0 0 [] [] (mk_giter src q m)) with (to_gscan (mk_ascan (tk_begin t) (accept_index t (tk_begin t)) 0 0 [] [] q (src, m))).
    rewrite dfa_loop_same.
    pose proof (loop_no_fuel (dfa_impl t) fuel (mk_ascan (tk_begin t) (accept_index t (tk_begin t)) 0 0 [] [] q (src, m))) as Hn. unfold dfa_impl in Hn.
    destruct (loop _ fuel _) as [[[u| |] s]| |]; cbn [to_gres bind]; auto; try solve [exfalso; destruct (Hn (away [] (src, m))); congruence]; try solve [exfalso; destruct (Hn s); congruence].
    unfold to_gscan. cbn [gs_pat gs_items gs_len gs_chars gs_src gi_queue gi_src gi_map]. destruct (as_pat s) as [p|].
    - destruct (give_back (rev (as_items s)) (as_len s) (as_queue s)) as [ri q']. cbn [im_make]. destruct (as_w s) as [src' m'].
      unfold dfa_impl. cbn [im_make]. destruct (nth_error (tk_makers t) p); reflexivity.
    - destruct (as_w s). reflexivity.
  Qed.
End Dfa.

(** ** A text, a closure without effects, and makers with effects of their own *)
Section Munch.
  Context {E T X : Type} (f : T -> N) (I : implementation E T (list T * X)) (mk : nat -> list N -> list T -> X -> res E * X).
  Hypothesis Hmk : forall p cs xs l x, im_make I p cs xs (l, x) = (fst (mk p cs xs x), (l, snd (mk p cs xs x))).
  Hypothesis Hsafe : safe I.
  Hypothesis Hret : forall p cs xs x, exists e, fst (mk p cs xs x) = Ok e.
  Notation pull := (@list_fst T X).
  Notation mapf := (pure_chars (X := list T * X) f).

  Lemma looks_list q w l cs q1 w1 : looks pull mapf q w l cs q1 w1 -> cs = map f l /\ snd w1 = snd w /\ q ++ fst w = l ++ q1 ++ fst w1.
  Proof.
    induction 1 as [q w|x q w c w1 l cs q' w' Hc H IH|x w w1 c w2 l cs q' w' Hp Hc H IH]; auto.
    - unfold pure_chars in Hc. inversion Hc; subst. destruct IH as (A & B & C). split; [cbn [map]; rewrite A; reflexivity|]. split; [exact B|]. cbn [app]. rewrite C. reflexivity.
    - unfold pure_chars in Hc. inversion Hc; subst. destruct IH as (A & B & C). unfold list_fst in Hp. destruct w as [[|y l'] xx]; simpl in Hp; inversion Hp; subst.
      cbn [fst snd] in *. split; [reflexivity|]. split; [exact B|]. simpl in C. simpl. rewrite C. reflexivity.
  Qed.
  Lemma ended_ext q w l cs q1 w1 w2 rest : looks pull mapf q w l cs q1 w1 -> ended pull I cs q1 w1 w2 -> q ++ fst w = l ++ rest ->
    snd w2 = snd w /\ rest = q1 ++ fst w2 /\ forall k p, length cs < k <= length (q ++ fst w) -> ~ im_accepts I (map f (firstn k (q ++ fst w))) p.
  Proof.
    intros Hl He Hr. pose proof (looks_len _ _ _ _ _ _ _ _ Hl) as Hlen. destruct (looks_list _ _ _ _ _ _ Hl) as (A & B & C).
    assert (Hrest : rest = q1 ++ fst w1) by (rewrite Hr in C; eapply app_inv_head; eauto).
    destruct He as [(cs0 & c & Ec & (n & Hn & Hs) & ->)|(Hn & -> & Hp)].
    - split; auto. split; auto. intros k p Hk (m & Hm & _). destruct (walk_prefix _ _ _ Hm (length cs)) as (m' & Hm'). rewrite <- firstn_map, firstn_firstn, Nat.min_l in Hm' by lia.
      rewrite firstn_map, Hr, Hlen, firstn_app, firstn_all, Nat.sub_diag in Hm'. cbn [firstn] in Hm'. rewrite app_nil_r, <- A, Ec in Hm'.
      apply walk_snoc_inv in Hm' as (m2 & Hm2 & Hn2). rewrite (walk_det _ _ _ Hm2 _ Hn) in Hn2. congruence.
    - unfold list_fst in Hp. destruct w1 as [[|y l'] xx]; simpl in Hp; inversion Hp; subst w2. cbn [fst snd app] in *. subst rest. split; auto. split; auto.
      intros k p Hk. rewrite Hr, app_nil_r, <- Hlen in Hk. lia.
  Qed.

  Lemma no_broken r q w q' w' : broken pull mapf I r q w q' w' -> r = Panic \/ r = OutOfFuel -> False.
  Proof.
    intros (l & cs & q1 & w1 & n & Hl & Hw & H) Hr. destruct Hsafe as [_ Hs]. destruct H as [(_ & _ & r' & Hp & Hr')|[(x & w2 & _ & r' & Hm & Hr')|[(x & w2 & c & _ & _ & r' & Hn & Hr')|(x & w2 & c & n' & _ & _ & Hn & r' & Ha & Hr')]]].
    - unfold list_fst in Hp. destruct (fst w1); inversion Hp; subst; destruct Hr' as [[? _]|[? _]]; discriminate.
    - unfold pure_chars in Hm. inversion Hm; subst. destruct Hr' as [[? _]|[? _]]; discriminate.
    - destruct (Hs _ _ Hw) as [_ Hc]. destruct (Hc c) as [z Hz]. rewrite Hz in Hn. subst. destruct Hr' as [[? _]|[? _]]; discriminate.
    - assert (Hw' : walk I (cs ++ [c]) n') by (econstructor; eauto). destruct (Hs _ _ Hw') as [[z Hz] _]. rewrite Hz in Ha. subst. destruct Hr' as [[? _]|[? _]]; discriminate.
  Qed.

  (** a call of [next] with the text [q ++ l] pending *)
  Lemma anext_pure fuel q l x : length (q ++ l) < fuel -> exists o q' l' x', anext pull mapf I fuel (q, (l, x)) = (Ok o, (q', (l', x'))) /\
    match o with
    | Some e => exists k p, longest (im_accepts I) f (q ++ l) k p /\ q' ++ l' = skipn k (q ++ l) /\
        mk p (map f (firstn k (q ++ l))) (firstn k (q ++ l)) x = (Ok e, x')
    | None => nothing (im_accepts I) f (q ++ l) /\ x' = x
    end.
  Proof.
    intros Hf. pose proof (anext_ok pull mapf I fuel q (l, x)) as H. destruct (anext pull mapf I fuel (q, (l, x))) as [r [q' [l' x']]].
    assert (Hpre : forall l0 cs q1 w1, looks pull mapf q (l, x) l0 cs q1 w1 -> q ++ l = l0 ++ skipn (length l0) (q ++ l) /\ cs = map f l0).
    { intros l0 cs q1 w1 Hl. destruct (looks_list _ _ _ _ _ _ Hl) as (A & B & C). cbn [fst] in C. split; auto. rewrite C, skipn_app, skipn_all, Nat.sub_diag. reflexivity. }
    destruct r as [o| |].
    - exists o, q', l', x'. split; auto. destruct H as (l0 & cs & q1 & w1 & w2 & Hl & He & Ho).
      destruct (Hpre _ _ _ _ Hl) as [Hq Hc]. destruct (ended_ext _ _ _ _ _ _ _ _ Hl He Hq) as (E1 & E2 & E3). cbn [fst snd] in *.
      assert (Hcs : forall k, k <= length cs -> firstn k cs = map f (firstn k (q ++ l)) /\ firstn k l0 = firstn k (q ++ l)).
      { intros k Hk. rewrite (looks_len _ _ _ _ _ _ _ _ Hl) in Hk. assert (G : firstn k l0 = firstn k (q ++ l)).
        { rewrite Hq, firstn_app. replace (k - length l0) with 0 by lia. cbn [firstn]. rewrite app_nil_r. reflexivity. }
        split; auto. rewrite Hc, firstn_map, G. reflexivity. }
      assert (Hlen : length cs <= length (q ++ l)) by (rewrite (looks_len _ _ _ _ _ _ _ _ Hl), Hq, app_length; lia).
      destruct o as [e|].
      + destruct Ho as (k & p & (L1 & L2 & L3) & Hm & Eq'). exists k, p. destruct (Hcs k L1) as [C1 C2]. split; [|split].
        * split; [lia|]. split; [rewrite <- C1; auto|]. intros k' p' Hk'. destruct (Nat.le_gt_cases k' (length cs)) as [Hle|Hgt].
          -- destruct (Hcs k' Hle) as [<- _]. apply L3. lia.
          -- apply E3. lia.
        * destruct w2 as [l2 x2]. rewrite Hmk in Hm. inversion Hm; subst. cbn [fst] in E2. rewrite <- app_assoc, <- E2. rewrite (looks_len _ _ _ _ _ _ _ _ Hl) in L1.
          transitivity (skipn k (l0 ++ skipn (length l0) (q ++ l))); [|rewrite <- Hq; reflexivity]. rewrite (skipn_app k l0). replace (k - length l0) with 0 by lia. reflexivity.
        * destruct w2 as [l2 x2]. rewrite Hmk in Hm. cbn [snd] in E1. subst x2. rewrite C1, C2 in Hm. destruct (mk p _ _ x) as [r2 x3]; simpl in Hm. congruence.
      + destruct Ho as (Hn & -> & <-). cbn [snd] in E1. split; auto. intros k p Hk. destruct (Nat.le_gt_cases k (length cs)) as [Hle|Hgt].
        * destruct (Hcs k Hle) as [<- _]. apply Hn. auto.
        * apply E3. lia.
    - exfalso. destruct Hsafe as [[b Hb] Hs]. destruct H as [(_ & _ & [H|(b' & Hb' & H)])|[H|(l0 & cs & q1 & w1 & w2 & k & p & _ & _ & _ & H & _)]].
      + congruence.
      + destruct (Hs [] b') as [[z Hz] _]; [constructor; auto|]. congruence.
      + eapply no_broken; eauto.
      + destruct w2 as [l2 x2]. rewrite Hmk in H. inversion H. destruct (Hret p (firstn k cs) (firstn k l0) x2) as [e He]. congruence.
    - exfalso. destruct Hsafe as [[b Hb] Hs]. destruct H as [H|[(b' & Hb' & H)|[(q2 & w2 & H)|[(l0 & cs & q1 & w1 & w2 & k & p & _ & _ & _ & H)|(l0 & cs & q1 & w1 & Hl & H)]]]].
      + congruence.
      + destruct (Hs [] b') as [[z Hz] _]; [constructor; auto|]. congruence.
      + eapply no_broken; eauto.
      + destruct w2 as [l2 x2]. rewrite Hmk in H. inversion H. destruct (Hret p (firstn k cs) (firstn k l0) x2) as [e He]. congruence.
      + destruct (Hpre _ _ _ _ Hl) as [Hq _]. rewrite Hq, app_length in Hf. lia.
  Qed.
End Munch.
