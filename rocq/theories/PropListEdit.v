(** * Property C104: an edit of some items of a list changes nothing about the others *)
From Coq Require Import List Arith Lia Bool.
From Verif Require Import Lib Grammar LrModel LrSpec LrTop ParseModel Trees ParseSpec ParseInv ParseComplete GramFacts ParseTerm ParseTop ParseMore ParseCover ParseExamples PropParse PropRecover ProdCheck NumSpec PropNum StmtSpec PropStmt SepRecSpec PropSepRec LeftRecSpec PropLeftRec WaysSpec PropWays ListEditSpec.
From Verif Require ParseStmt ParseSepRec ParseLeftRec.
Import ListNotations.

Section Edit.
  Context {N T E : Type} (tix : T -> nat).
  Variables (base : list (crule N T E)) (X sep : nat).
  Notation row := (row tix base X sep).
  Notation entry := (entry tix base X).
  Notation fin := (finished tix sep).
  Notation clean := (no_end tix sep).

  Lemma fin_tail y w : fin (y :: w) -> fin w.
  Proof.
    intros [H|(u & x & H & Hx)]; [discriminate|]. destruct u as [|z u]; simpl in H; injection H as -> ->; [left; auto|right; eauto].
  Qed.
  Lemma fin_app c d : fin c -> fin d -> fin (c ++ d).
  Proof. intros Hc [->|(u & x & -> & Hx)]; [rewrite app_nil_r; auto|]. right. exists (c ++ u), x. rewrite app_assoc. auto. Qed.
  Lemma fin_app_r c d : d <> [] -> fin (c ++ d) -> fin d.
  Proof. induction c as [|y c IH]; auto. intros Hd H. apply IH; auto. eapply fin_tail; eauto. Qed.
  Lemma fin_clean d u : fin d -> clean (d ++ u) -> d = [].
  Proof. intros [->|(d0 & x & -> & Hx)] H; auto. exfalso. apply (H x); auto. apply in_or_app. left. apply in_or_app. simpl. auto. Qed.
  Lemma head_cut u x rest : forall c d, clean u -> tix x = sep -> fin c -> c <> [] -> u ++ x :: rest = c ++ d -> exists c', c = u ++ x :: c' /\ rest = c' ++ d /\ fin c'.
  Proof.
    induction u as [|y u IH]; intros c d Hu Hx Hf Hc E0; destruct c as [|z c]; try congruence; simpl in E0; injection E0 as -> E0.
    - exists c. split; auto. split; auto. eapply fin_tail; eauto.
    - destruct (IH c d) as (c' & -> & -> & Hc'); auto.
      + intros y Hy. apply Hu. simpl. auto.
      + eapply fin_tail; eauto.
      + intros ->. apply fin_clean with (u := []) in Hf; [discriminate|]. intros y Hy. apply Hu. simpl in *. tauto.
      + exists c'. auto.
  Qed.
  Lemma tail_cut : forall c w0 u q, fin w0 -> fin c -> clean u -> w0 ++ u = c ++ q -> exists q0, fin q0 /\ q = q0 ++ u /\ w0 = c ++ q0.
  Proof.
    induction c as [|z c IH]; intros w0 u q Hw Hc Hu E0; simpl in E0.
    - exists w0. auto.
    - destruct w0 as [|y w0]; simpl in E0.
      + exfalso. subst u. apply (fin_clean (z :: c) q) in Hc; [discriminate|exact Hu].
      + injection E0 as -> E0. destruct (IH w0 u q) as (q0 & H1 & H2 & H3); auto; [eapply fin_tail; eauto..|]. exists q0. split; auto. split; auto. simpl. congruence.
  Qed.

  Lemma row_fin w l : row w l -> fin w.
  Proof. intros H. induction H as [|u x rest a l Hu Hx He Hr IH]; [left; auto|]. change (x :: rest) with ([x] ++ rest). rewrite app_assoc. apply fin_app; auto. right. eauto. Qed.
  Lemma row_app w l w' l' : row w l -> row w' l' -> row (w ++ w') (l ++ l').
  Proof. intros H H'. induction H as [|u x rest a l Hu Hx He Hr IH]; auto. rewrite <- app_assoc. simpl. constructor; auto. Qed.
  Lemma row_split w l : row w l -> forall c d, fin c -> w = c ++ d -> exists l0 l1, l = l0 ++ l1 /\ row c l0 /\ row d l1.
  Proof.
    intros H. induction H as [|u x rest a l Hu Hx He Hr IH]; intros c d Hc E0.
    - destruct c; [|discriminate]. simpl in E0. subst d. exists [], []. repeat split; constructor.
    - destruct c as [|z c].
      + simpl in E0. subst d. exists [], (a :: l). split; auto. split; [constructor|constructor; auto].
      + destruct (head_cut u x rest (z :: c) d) as (c' & -> & -> & Hc'); auto; [discriminate|]. destruct (IH c' d Hc' eq_refl) as (l0 & l1 & -> & R0 & R1).
        exists (a :: l0), l1. split; auto. split; auto. constructor; auto.
  Qed.
  Lemma row_length w l : row w l -> length l = separators tix sep w.
  Proof.
    assert (Hc : forall u, clean u -> filter (fun y => tix y =? sep) u = []).
    { induction u as [|y u IH]; intros Hu; auto. simpl. destruct (Nat.eqb_spec (tix y) sep); [exfalso; apply (Hu y); simpl; auto|]. apply IH. intros z Hz. apply Hu. simpl. auto. }
    intros H. induction H as [|u x rest a l Hu Hx He Hr IH]; auto. unfold separators in *. rewrite filter_app, app_length, Hc by auto. simpl. apply Nat.eqb_eq in Hx. rewrite Hx. simpl. congruence.
  Qed.

  Section Det.
    Hypothesis Hone : forall x u a1 a2, tix x = sep -> value tix base (NT X) u a1 -> value tix base (NT X) u a2 -> a1 = a2.
    Hypothesis Hval : forall u a, value tix base (NT X) u a -> is_stmt tix base X u.
    Lemma entry_det u x a a' : tix x = sep -> entry u x a -> entry u x a' -> a = a'.
    Proof.
      intros Hx H H'. inversion H; subst; inversion H'; subst; try solve [exfalso; eauto].
      - eapply (Hone x); eauto.
      - f_equal. eapply ParseLeftRec.reported_det; eauto.
    Qed.
    Lemma row_det w l : row w l -> forall l', row w l' -> l' = l.
    Proof.
      intros H. induction H as [|u x rest a l Hu Hx He Hr IH]; intros l' H'; inversion H' as [E0|u' x' rest' a' l0 Hu' Hx' He' Hr' E0]; auto.
      - destruct u'; discriminate E0.
      - exfalso. destruct u; discriminate.
      - destruct (split_first tix sep _ _ _ _ _ _ Hu' Hu Hx' Hx E0) as (-> & -> & ->). f_equal; auto. eapply entry_det; eauto.
    Qed.

    Context {A : Type} (view : N -> list A) (elem : arg N T -> A) (tail : list T -> list A -> Prop).
    Hypothesis Htail : forall u t t', tail u t -> tail u t' -> t = t'.
    (** complete pieces and a rest *)
    Definition shape (w : list T) (v : N) : Prop := exists w0 u l0 t, w = w0 ++ u /\ clean u /\ row w0 l0 /\ tail u t /\ view v = map elem l0 ++ t.
    Lemma edit p m m' q v v' : fin p -> fin m -> fin m' -> shape (p ++ m ++ q) v -> shape (p ++ m' ++ q) v' ->
      exists l1 k k' l2, row p l1 /\ row m k /\ row m' k' /\ view v = map elem (l1 ++ k) ++ l2 /\ view v' = map elem (l1 ++ k') ++ l2.
    Proof.
      intros Hp Hm Hm' (w0 & u & l & t & E0 & Hu & Hr & Ht & Ev) (w0' & u' & l' & t' & E0' & Hu' & Hr' & Ht' & Ev').
      rewrite app_assoc in E0, E0'. symmetry in E0, E0'.
      destruct (tail_cut (p ++ m) w0 u q (row_fin _ _ Hr) (fin_app _ _ Hp Hm) Hu E0) as (q0 & Hq & -> & ->).
      destruct (tail_cut (p ++ m') w0' u' (q0 ++ u) (row_fin _ _ Hr') (fin_app _ _ Hp Hm') Hu' E0') as (q1 & Hq1 & E1 & ->).
      destruct (tail_cut q1 q0 u u' Hq Hq1 Hu E1) as (d & Hd & E2 & E3). rewrite E2 in Hu'. pose proof (fin_clean _ _ Hd Hu') as ->. simpl in E2. rewrite app_nil_r in E3. subst u' q1.
      rewrite <- app_assoc in Hr, Hr'.
      destruct (row_split _ _ Hr p _ Hp eq_refl) as (l1 & lr & -> & R1 & Rr). destruct (row_split _ _ Rr m _ Hm eq_refl) as (k & l2 & -> & R2 & R3).
      destruct (row_split _ _ Hr' p _ Hp eq_refl) as (l1' & lr' & -> & R1' & Rr'). destruct (row_split _ _ Rr' m' _ Hm' eq_refl) as (k' & l2' & -> & R2' & R3').
      rewrite (row_det _ _ R1 _ R1'), (row_det _ _ R3 _ R3'), (Htail _ _ _ Ht' Ht) in Ev'.
      exists l1, k, k', (map elem l2 ++ t). repeat split; auto.
      - rewrite Ev, !map_app, <- !app_assoc. reflexivity.
      - rewrite Ev', !map_app, <- !app_assoc. reflexivity.
    Qed.
  End Det.

  Context {A : Type} (view : N -> list A) (elem : arg N T -> A).
  Lemma program_shape g1 g2 g3 w v : inserts view elem g1 -> inserts view elem g2 -> starts_empty view g3 ->
    program tix base X sep g1 g2 g3 w v -> shape view elem (fun u t => u = [] /\ t = []) w v.
  Proof.
    intros H1 H2 H3 H. enough (Hl : exists l, row w l /\ view v = map elem l).
    { destruct Hl as (l & Hl & El). exists w, [], l, []. rewrite !app_nil_r. repeat split; auto. intros y []. }
    induction H as [v Hg|u x rest a v' v Hu Hx Hv Hr (l & Hl & El) Hg|u x rest sl v' v Hu Hx Hns Hsl Hr (l & Hl & El) Hg].
    - exists []. split; [constructor|]. simpl. eauto.
    - exists (a :: l). split; [constructor; auto; left; auto|]. simpl. rewrite <- El. eapply H1; eauto.
    - exists (ErrorSym sl :: l). split; [constructor; auto; right; auto|]. simpl. rewrite <- El. eapply H2; eauto.
  Qed.
  Lemma read_shape g1 g2 g3 w v : inserts view elem g1 -> inserts view elem g2 -> starts_with view elem g3 ->
    read_list tix base X sep g1 g2 g3 w v -> shape view elem (fun u t => exists a, value tix base (NT X) u a /\ t = [elem a]) w v.
  Proof.
    intros H1 H2 H3 H. assert (Hstep : forall u x rest a v v', clean u -> tix x = sep -> entry u x a -> view v = elem a :: view v' ->
      shape view elem (fun u t => exists a, value tix base (NT X) u a /\ t = [elem a]) rest v' -> shape view elem (fun u t => exists a, value tix base (NT X) u a /\ t = [elem a]) (u ++ x :: rest) v).
    { intros u x rest a v0 v' Hu Hx He Ev (w0 & u0 & l0 & t & -> & Hu0 & Hr & Ht & Ev'). exists (u ++ x :: w0), u0, (a :: l0), t. rewrite <- app_assoc. split; auto. split; auto. split; [constructor; auto|]. split; auto.
      rewrite Ev, Ev'. reflexivity. }
    induction H as [u a v Hu Hv Hg|u x rest a v' v Hu Hx Hv Hr IH Hg|u x rest sl v' v Hu Hx Hns Hsl Hr IH Hg].
    - exists [], u, [], [elem a]. split; auto. split; auto. split; [constructor|]. split; [eauto|]. simpl. eapply H3; eauto.
    - apply (Hstep u x rest a v v' Hu Hx); [left; auto|eapply H1; eauto|auto].
    - apply (Hstep u x rest (ErrorSym sl) v v' Hu Hx); [right; auto|eapply H2; eauto|auto].
  Qed.
  Lemma left_row g1 g2 g3 g4 w w0 nx v : starts_with view elem g1 -> starts_with view elem g2 -> pushes view elem g3 -> pushes view elem g4 ->
    left_value tix base X sep g1 g2 g3 g4 w w0 nx v -> (forall x, nx = Some x -> tix x = sep) ->
    exists w1 u l a, w0 = w1 ++ u /\ clean u /\ row w1 l /\ piece tix base X w u nx a /\ view v = map elem l ++ [elem a].
  Proof.
    intros H1 H2 H3 H4 H. assert (Hw : forall a (i b : reducer N T E) l, which a i b l = i l \/ which a i b l = b l) by (intros [| |]; simpl; auto).
    induction H as [u nx a v Hu Hpc Hg|w0 x0 u nx v0 a v Hl IH Hx0 Hu Hpc Hg]; intros Hnx.
    - exists [], u, [], a. split; auto. split; auto. split; [constructor|]. split; auto. simpl. destruct (Hw a g1 g2 [a]) as [E0|E0]; rewrite E0 in Hg; eauto.
    - destruct IH as (w1 & u0 & l & a0 & -> & Hu0 & Hr & Hpc0 & Ev0); [intros x Hx; injection Hx as <-; auto|]. exists ((w1 ++ u0) ++ [x0]), u, (l ++ [a0]), a.
      split; [rewrite <- !app_assoc; reflexivity|]. split; auto. split; [|split; auto].
      + rewrite <- app_assoc. apply row_app; auto. constructor; auto; [|constructor]. inversion Hpc0; subst; [left|right]; auto.
      + rewrite map_app. simpl. rewrite <- Ev0. destruct (Hw a g3 g4 [NonTerminal v0; Terminal x0; a]) as [E0|E0]; rewrite E0 in Hg; eauto.
  Qed.
  Lemma left_shape g1 g2 g3 g4 w v : starts_with view elem g1 -> starts_with view elem g2 -> pushes view elem g3 -> pushes view elem g4 -> ends_open tix sep w ->
    left_value tix base X sep g1 g2 g3 g4 w w None v ->
    shape view elem (fun u t => exists a, (value tix base (NT X) u a \/ ~ begins tix base X u /\ a = ErrorSym u) /\ t = [elem a]) w v.
  Proof.
    intros H1 H2 H3 H4 (wo & y & Ew & Hy) H. destruct (left_row g1 g2 g3 g4 w w None v H1 H2 H3 H4 H ltac:(discriminate)) as (w1 & u & l & a & E0 & Hu & Hr & Hpc & Ev).
    exists w1, u, l, [elem a]. repeat split; auto. exists a. split; auto. inversion Hpc; subst; auto. exfalso.
    rewrite app_nil_r in E0. apply row_fin in Hr as [->|(u & x & -> & Hx)]; [destruct wo; discriminate E0|]. apply app_inj_tail in E0 as [_ ->]. contradiction.
  Qed.
End Edit.

(** as many entries as separators *)
Theorem C104_count : forall N T E (tix : T -> nat) (base : list (crule N T E)) X sep w l, row tix base X sep w l -> length l = separators tix sep w.
Proof. intros. eapply row_length; eauto. Qed.
Print Assumptions C104_count.

(** R ::= X sep R | error sep R | (nothing) *)
Theorem C104_statements : forall N T E (nix : N -> nat) (tix : T -> nat) e base X R sep (g1 g2 g3 : reducer N T E) P (A : Type) (view : N -> list A) (elem : arg N T -> A) p m m' q,
  let s := stmt_list base X R sep g1 g2 g3 in
  api_syntax nix tix s -> statement_rules base X R sep -> makes e s P [] -> productive (gram s) ->
  inserts view elem g1 -> inserts view elem g2 -> starts_empty view g3 ->
  finished tix sep p -> finished tix sep m -> finished tix sep m' ->
  (forall v v', returns tix P (p ++ m ++ q) (ROk v) -> returns tix P (p ++ m' ++ q) (ROk v') ->
     exists l1 k k' l2, row tix base X sep p l1 /\ row tix base X sep m k /\ row tix base X sep m' k' /\ view v = map elem (l1 ++ k) ++ l2 /\ view v' = map elem (l1 ++ k') ++ l2) /\
  (total_on tix s (p ++ m ++ q) -> total_on tix s (p ++ m' ++ q) -> (exists v, returns tix P (p ++ m ++ q) (ROk v)) -> exists v', returns tix P (p ++ m' ++ q) (ROk v')).
Proof.
  intros N T E nix tix e base X R sep g1 g2 g3 P A view elem p m m' q s Ha Hb Hmk Hpr G1 G2 G3 Hp Hm Hm'. destruct (makes_made nix tix e s P [] Ha Hmk) as [ss Hmd]. split.
  - intros v v' Hr Hr'.
    apply (edit tix base X sep (fun x u a1 a2 Hx => ParseStmt.value_unique tix base X R sep g1 g2 g3 Hb P ss Hmd u a1 a2 x Hx)
      (ParseStmt.value_stmt tix base X R sep g1 g2 g3 Hb P ss Hmd) view elem (fun u t => u = [] /\ t = [])) with (q := q); auto.
    + intros u t t' [_ ->] [_ ->]. auto.
    + eapply program_shape; [exact G1|exact G2|exact G3|]. eapply C76_statements; eauto.
    + eapply program_shape; [exact G1|exact G2|exact G3|]. eapply C76_statements; eauto.
  - intros Ht Ht' [v Hv].
    destruct (C76_exact _ _ _ nix tix e base X R sep g1 g2 g3 P _ Ha Hb Hmk Hpr Ht) as (A1 & _ & _). destruct (C76_exact _ _ _ nix tix e base X R sep g1 g2 g3 P _ Ha Hb Hmk Hpr Ht') as (B1 & B2 & _).
    assert (Hf : finished tix sep (p ++ m ++ q)).
    { apply A1 in Hv. destruct (program_shape tix base X sep view elem g1 g2 g3 _ v G1 G2 G3 Hv) as (w0 & u & l0 & t & E0 & _ & H0 & [-> _] & _). rewrite app_nil_r in E0. rewrite E0. eapply row_fin; eauto. }
    destruct B2 as [v' Hv']; [|exists v'; apply B1; auto]. apply fin_app; auto. apply fin_app; auto.
    destruct q as [|y q]; [left; auto|]. rewrite app_assoc in Hf. eapply fin_app_r; [|exact Hf]. discriminate.
Qed.
Print Assumptions C104_statements.

(** R ::= X sep R | error sep R | X *)
Theorem C104_right : forall N T E (nix : N -> nat) (tix : T -> nat) e base X R sep (g1 g2 g3 : reducer N T E) P (A : Type) (view : N -> list A) (elem : arg N T -> A) p m m' q,
  let s := rec_list base X R sep g1 g2 g3 in
  api_syntax nix tix s -> statement_rules base X R sep -> makes e s P [] -> productive (gram s) ->
  inserts view elem g1 -> inserts view elem g2 -> starts_with view elem g3 ->
  finished tix sep p -> finished tix sep m -> finished tix sep m' ->
  (forall v v', returns tix P (p ++ m ++ q) (ROk v) -> returns tix P (p ++ m' ++ q) (ROk v') ->
     exists l1 k k' l2, row tix base X sep p l1 /\ row tix base X sep m k /\ row tix base X sep m' k' /\ view v = map elem (l1 ++ k) ++ l2 /\ view v' = map elem (l1 ++ k') ++ l2) /\
  (total_on tix s (p ++ m ++ q) -> total_on tix s (p ++ m' ++ q) -> (exists v, returns tix P (p ++ m ++ q) (ROk v)) -> exists v', returns tix P (p ++ m' ++ q) (ROk v')).
Proof.
  intros N T E nix tix e base X R sep g1 g2 g3 P A view elem p m m' q s Ha Hb Hmk Hpr G1 G2 G3 Hp Hm Hm'. destruct (makes_made nix tix e s P [] Ha Hmk) as [ss Hmd].
  pose proof (ParseSepRec.value_unique tix base X R sep g1 g2 g3 Hb P ss Hmd) as Hone. pose proof (ParseSepRec.value_stmt tix base X R sep g1 g2 g3 Hb P ss Hmd) as Hval. split.
  - intros v v' Hr Hr'.
    apply (edit tix base X sep (fun x u a1 a2 _ => Hone u a1 a2) Hval view elem (fun u t => exists a, value tix base (NT X) u a /\ t = [elem a])) with (q := q); auto.
    + intros u t t' (a & Hv1 & ->) (a' & Hv2 & ->). rewrite (Hone _ _ _ Hv1 Hv2). auto.
    + eapply read_shape; [exact G1|exact G2|exact G3|]. eapply C101_items; eauto.
    + eapply read_shape; [exact G1|exact G2|exact G3|]. eapply C101_items; eauto.
  - intros Ht Ht' [v Hv].
    destruct (C101_exact _ _ _ nix tix e base X R sep g1 g2 g3 P _ Ha Hb Hmk Hpr Ht) as (A1 & _ & _). destruct (C101_exact _ _ _ nix tix e base X R sep g1 g2 g3 P _ Ha Hb Hmk Hpr Ht') as (B1 & B2 & _).
    apply A1 in Hv. destruct (read_shape tix base X sep view elem g1 g2 g3 _ v G1 G2 G3 Hv) as (w0 & u & l0 & t & E0 & Hu & H0 & (a & Hva & _) & _).
    rewrite app_assoc in E0. symmetry in E0. destruct (tail_cut tix sep (p ++ m) w0 u q (row_fin _ _ _ _ _ _ H0) (fin_app _ _ _ _ Hp Hm) Hu E0) as (q0 & Hq & -> & ->).
    destruct B2 as [v' Hv']; [|exists v'; apply B1; auto]. exists u. split; auto. split; [eapply Hval; eauto|].
    assert (Hf : finished tix sep (p ++ m' ++ q0)) by (apply fin_app; auto; apply fin_app; auto). rewrite !app_assoc in *. destruct Hf as [->|(w1 & x & -> & Hx)]; [left; auto|].
    right. exists w1, x. split; auto. rewrite <- app_assoc. reflexivity.
Qed.
Print Assumptions C104_right.

(** R ::= X | error | R sep X | R sep error, for inputs whose last piece is not empty *)
Theorem C104_left : forall N T E (nix : N -> nat) (tix : T -> nat) e base X R sep (g1 g2 g3 g4 : reducer N T E) P (A : Type) (view : N -> list A) (elem : arg N T -> A) p m m' q,
  let s := left_rec base X R sep g1 g2 g3 g4 in
  api_syntax nix tix s -> statement_rules base X R sep -> makes e s P [] -> productive (gram s) ->
  starts_with view elem g1 -> starts_with view elem g2 -> pushes view elem g3 -> pushes view elem g4 ->
  finished tix sep p -> finished tix sep m -> finished tix sep m' -> ends_open tix sep q ->
  (forall v v', returns tix P (p ++ m ++ q) (ROk v) -> returns tix P (p ++ m' ++ q) (ROk v') ->
     exists l1 k k' l2, row tix base X sep p l1 /\ row tix base X sep m k /\ row tix base X sep m' k' /\ view v = map elem (l1 ++ k) ++ l2 /\ view v' = map elem (l1 ++ k') ++ l2) /\
  (total_on tix s (p ++ m ++ q) -> total_on tix s (p ++ m' ++ q) -> (exists v, returns tix P (p ++ m ++ q) (ROk v)) -> exists v', returns tix P (p ++ m' ++ q) (ROk v')).
Proof.
  intros N T E nix tix e base X R sep g1 g2 g3 g4 P A view elem p m m' q s Ha Hb Hmk Hpr G1 G2 G3 G4 Hp Hm Hm' Hq. destruct (makes_made nix tix e s P [] Ha Hmk) as [ss Hmd].
  pose proof (ParseLeftRec.value_unique tix base X R sep g1 g2 g3 g4 Hb P ss Hmd) as Hone. pose proof (ParseLeftRec.value_stmt tix base X R sep g1 g2 g3 g4 Hb P ss Hmd) as Hval.
  assert (Hopen : forall c, ends_open tix sep (c ++ q)) by (destruct Hq as (q0 & y & -> & Hy); intros c; exists (c ++ q0), y; rewrite app_assoc; auto). split.
  - intros v v' Hr Hr'.
    apply (edit tix base X sep (fun x u a1 a2 _ => Hone u a1 a2) Hval view elem (fun u t => exists a, (value tix base (NT X) u a \/ ~ begins tix base X u /\ a = ErrorSym u) /\ t = [elem a])) with (q := q); auto.
    + assert (Hno : forall u a, value tix base (NT X) u a -> ~ begins tix base X u -> False) by (intros u a H H'; apply H'; exists []; rewrite app_nil_r; eapply Hval; eauto).
      intros u t t' (a & Hv1 & ->) (a' & Hv2 & ->). destruct Hv1 as [Hv1|[Hn1 ->]], Hv2 as [Hv2|[Hn2 ->]]; auto; try solve [exfalso; eauto]. rewrite (Hone _ _ _ Hv1 Hv2). auto.
    + eapply left_shape; [exact G1|exact G2|exact G3|exact G4|rewrite app_assoc; auto|]. eapply C102_items; eauto.
    + eapply left_shape; [exact G1|exact G2|exact G3|exact G4|rewrite app_assoc; auto|]. eapply C102_items; eauto.
  - intros Ht Ht' [v Hv].
    assert (Hne : forall c, c ++ q <> []) by (intros c; destruct Hq as (q0 & y & -> & _); destruct c; [destruct q0|]; discriminate).
    destruct (C102_exact _ _ _ nix tix e base X R sep g1 g2 g3 g4 P _ Ha Hb Hmk Hpr Ht ltac:(rewrite app_assoc; apply Hne)) as (A1 & _ & A3). destruct (C102_exact _ _ _ nix tix e base X R sep g1 g2 g3 g4 P _ Ha Hb Hmk Hpr Ht' ltac:(rewrite app_assoc; apply Hne)) as (B1 & B2 & _).
    destruct B2 as [v' Hv']; [|exists v'; apply B1; auto]. intros (u & Hu & Hu0 & Hbg & Hns & Hc).
    assert (Hcut : exists w0, finished tix sep w0 /\ w0 ++ u = p ++ m' ++ q).
    { destruct Hc as [->|(w0 & x & Hx & ->)]; [exists []; split; auto; left; auto|]. exists (w0 ++ [x]). split; [right; eauto|rewrite <- app_assoc; reflexivity]. }
    destruct Hcut as (w0 & Hw0 & E0). rewrite app_assoc in E0. destruct (tail_cut tix sep (p ++ m') w0 u q Hw0 (fin_app _ _ _ _ Hp Hm') Hu E0) as (q0 & Hq0 & -> & ->).
    enough (Hun : unfinished tix base X sep (p ++ m ++ q0 ++ u)) by (pose proof (returns_det _ _ _ _ _ Hv (A3 Hun)); discriminate).
    exists u. repeat split; auto. assert (Hf : finished tix sep (p ++ m ++ q0)) by (apply fin_app; auto; apply fin_app; auto). rewrite !app_assoc in *. destruct Hf as [->|(w1 & x & -> & Hx)]; [left; auto|].
    right. exists w1, x. split; auto. rewrite <- app_assoc. reflexivity.
Qed.
Print Assumptions C104_left.

(** ** Example: the lists of [PropWays].  n , + , n , n  becomes  n , ( , , n , n *)
Example C104_example : exists l1 k k' l2, row self st_base 0 2 [0; 2] l1 /\ row self st_base 0 2 [1; 2] k /\ row self st_base 0 2 [3; 2; 2] k' /\
  map wy_elem l1 = [[0]] /\ map wy_elem k = [[100; 1]] /\ map wy_elem k' = [[100; 3; 2]; [100; 2]] /\ l2 = [[0]; [0]] /\
  returns self P_wy2 ([0; 2] ++ [1; 2] ++ [0; 2; 0]) (ROk (map wy_elem (l1 ++ k) ++ l2)) /\ returns self P_wy2 ([0; 2] ++ [3; 2; 2] ++ [0; 2; 0]) (ROk (map wy_elem (l1 ++ k') ++ l2)) /\
  returns self P_wy3 ([0; 2] ++ [1; 2] ++ [0; 2; 0]) (ROk (map wy_elem (l1 ++ k) ++ l2)) /\ returns self P_wy3 ([0; 2] ++ [3; 2; 2] ++ [0; 2; 0]) (ROk (map wy_elem (l1 ++ k') ++ l2)) /\
  returns self P_wy1 ([0; 2] ++ [1; 2] ++ [0; 2; 0; 2]) (ROk (map wy_elem (l1 ++ k) ++ l2)) /\ returns self P_wy1 ([0; 2] ++ [3; 2; 2] ++ [0; 2; 0; 2]) (ROk (map wy_elem (l1 ++ k') ++ l2)).
Proof.
  destruct wy_made as (_ & M2 & _), wy_collect as (K1 & K2 & K3 & K4).
  assert (Hf : forall w, finished self 2 (w ++ [2])) by (intros w; right; exists w, 2; auto).
  assert (R1 : returns self P_wy2 ([0; 2] ++ [1; 2] ++ [0; 2; 0]) (ROk [[0]; [100; 1]; [0]; [0]])) by (exists 200; vm_compute; reflexivity).
  assert (R2 : returns self P_wy2 ([0; 2] ++ [3; 2; 2] ++ [0; 2; 0]) (ROk [[0]; [100; 3; 2]; [100; 2]; [0]; [0]])) by (exists 200; vm_compute; reflexivity).
  destruct (proj1 (C104_right vals nat nat no_vals self env0 st_base 0 1 2 wy_ins wy_ins wy_one P_wy2 _ id wy_elem [0; 2] [1; 2] [3; 2; 2] [0; 2; 0] ltac:(raw_rules) st_rules M2
    ltac:(apply (prod_check_sound _ 4); reflexivity) K1 K1 K3 (Hf [0]) (Hf [1]) (Hf [3; 2])) _ _ R1 R2) as (l1 & k & k' & l2 & H1 & H2 & H3 & E1 & E2).
  pose proof (C104_count _ _ _ _ _ _ _ _ _ H1) as N1. pose proof (C104_count _ _ _ _ _ _ _ _ _ H2) as N2. pose proof (C104_count _ _ _ _ _ _ _ _ _ H3) as N3. cbv in N1, N2, N3.
  destruct l1 as [|a [|]]; try discriminate N1. destruct k as [|b [|]]; try discriminate N2. destruct k' as [|c [|d [|]]]; try discriminate N3.
  unfold id in E1, E2. simpl map in E1, E2. simpl app in E1, E2. injection E1 as Ea Eb El. injection E2 as _ Ec Ed _.
  exists [a], [b], [c; d], l2. simpl map. rewrite <- Ea, <- Eb, <- Ec, <- Ed, <- El. do 7 (split; [auto|]). repeat split; exists 200; vm_compute; reflexivity.
Qed.

(** the list with left recursion after a trailing separator: what is reported of the missing item is the first token of the input *)
Theorem C104_trailing_refuted : exists v v', returns self P_wy3 ([] ++ [0; 2] ++ []) (ROk v) /\ returns self P_wy3 ([] ++ [3; 0; 4; 2] ++ []) (ROk v') /\
  ~ exists l1 k k' l2, row self st_base 0 2 [] l1 /\ row self st_base 0 2 [0; 2] k /\ row self st_base 0 2 [3; 0; 4; 2] k' /\ v = map wy_elem (l1 ++ k) ++ l2 /\ v' = map wy_elem (l1 ++ k') ++ l2.
Proof.
  exists [[0]; [100; 0]], [[0]; [100; 3]]. split; [exists 200; vm_compute; reflexivity|]. split; [exists 200; vm_compute; reflexivity|]. intros (l1 & k & k' & l2 & H1 & H2 & H3 & E1 & E2).
  apply C104_count in H1, H2, H3. cbv in H1, H2, H3. destruct l1; try discriminate H1. destruct k as [|b [|]]; try discriminate H2. destruct k' as [|c [|]]; try discriminate H3.
  simpl in E1, E2. injection E1 as _ E1. injection E2 as _ E2. congruence.
Qed.
Print Assumptions C104_trailing_refuted.
