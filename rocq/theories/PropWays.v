(** * Property C103: three ways to write a list of items agree, error recovery included *)
From Coq Require Import List Arith Lia Bool.
From Verif Require Import Lib Grammar LrModel LrSpec LrTop ParseModel Trees ParseSpec ParseInv ParseComplete GramFacts ParseTerm ParseTop ParseMore ParseCover ParseExamples PropParse PropRecover ProdCheck NumSpec PropNum StmtSpec PropStmt SepRecSpec PropSepRec LeftRecSpec ParseLeftRec PropLeftRec WaysSpec.
Import ListNotations.

Section Ways.
  Context {N T E : Type} (tix : T -> nat).
  Variables (base : list (crule N T E)) (X sep : nat).
  Context {A : Type} (view : N -> list A) (elem : arg N T -> A).
  Let ent := entries tix base X sep.

  Lemma read_entries g1 g2 g3 w v : inserts view elem g1 -> inserts view elem g2 -> starts_with view elem g3 ->
    read_list tix base X sep g1 g2 g3 w v -> exists l, ent w l /\ view v = map elem l.
  Proof.
    intros H1 H2 H3 H. induction H as [u a v Hu Hv Hg|u x rest a v' v Hu Hx Hv Hr (l & Hl & El) Hg|u x rest sl v' v Hu Hx Hns Hsl Hr (l & Hl & El) Hg].
    - exists [a]. split; [constructor; auto|]. simpl. eapply H3; eauto.
    - exists (a :: l). split; [constructor; auto|]. simpl. rewrite <- El. eapply H1; eauto.
    - exists (ErrorSym sl :: l). split; [apply entries_wrong; auto|]. simpl. rewrite <- El. eapply H2; eauto.
  Qed.

  Lemma last_no_end u : no_end tix sep u -> last_right tix base X sep u -> is_stmt tix base X u.
  Proof. intros Hu (u' & Hn & Hs & [->|(w0 & x & Hx & ->)]); auto. exfalso. apply (Hu x); auto. apply in_or_app. simpl. auto. Qed.
  Lemma last_rest u x rest : no_end tix sep u -> tix x = sep -> last_right tix base X sep (u ++ x :: rest) -> last_right tix base X sep rest.
  Proof.
    intros Hu Hx (u' & Hn & Hs & [<-|(w0 & x' & Hx' & E0)]); [exfalso; apply (Hn x); auto; apply in_or_app; simpl; auto|].
    exists u'. split; auto. split; auto. clear Hs. revert w0 E0. induction u as [|y u IH]; intros w0 E0; simpl in E0.
    - destruct w0 as [|z w0]; simpl in E0; injection E0 as E1 E2; [left; auto|right; exists w0, x'; auto].
    - destruct w0 as [|z w0]; simpl in E0; injection E0 as E1 E2.
      + exfalso. apply (Hu y); [simpl; auto|]. congruence.
      + apply (IH ltac:(intros y' Hy'; apply Hu; simpl; auto) w0). exact E2.
  Qed.

  Lemma program_entries g1 g2 g3 w x v : inserts view elem g1 -> inserts view elem g2 -> starts_empty view g3 ->
    program tix base X sep g1 g2 g3 (w ++ [x]) v -> last_right tix base X sep w -> exists l, ent w l /\ view v = map elem l.
  Proof.
    intros H1 H2 H3 H. remember (w ++ [x]) as wx eqn:Ew. revert w Ew.
    assert (Hlast : forall u (y : T) w, u ++ [y] = w ++ [x] -> w = u) by (intros u y w E0; apply app_inj_tail in E0 as [-> _]; auto).
    assert (Hmore : forall u (y : T) r rest w, u ++ y :: r :: rest = w ++ [x] -> exists rest', r :: rest = rest' ++ [x] /\ w = u ++ y :: rest').
    { intros u y r rest w E0. destruct (exists_last (l := r :: rest) ltac:(discriminate)) as (rest' & z & E1). rewrite E1 in E0.
      change (u ++ y :: rest' ++ [z]) with (u ++ (y :: rest') ++ [z]) in E0. rewrite app_assoc in E0. apply app_inj_tail in E0 as [<- <-]. eauto. }
    assert (Hnil : forall v, program tix base X sep g1 g2 g3 [] v -> view v = []).
    { intros v0 Hp. inversion Hp as [v1 Hg|u y rest a v' v1 ? ? ? ? ? E0|u y rest a v' v1 ? ? ? ? ? ? E0]; subst; [eapply H3; eauto|destruct u; discriminate E0..]. }
    induction H as [v Hg|u y rest a v' v Hu Hx Hv Hr IH Hg|u y rest sl v' v Hu Hx Hns Hsl Hr IH Hg]; intros w Ew Hw.
    - destruct w; discriminate Ew.
    - destruct rest as [|r rest].
      + rewrite (Hlast _ _ _ Ew). exists [a]. split; [constructor; auto|]. simpl. rewrite <- (Hnil _ Hr). eapply H1; eauto.
      + destruct (Hmore _ _ _ _ _ Ew) as (rest' & E1 & ->). destruct (IH rest' E1 (last_rest _ _ _ Hu Hx Hw)) as (l & Hl & El).
        exists (a :: l). split; [constructor; auto|]. simpl. rewrite <- El. eapply H1; eauto.
    - destruct rest as [|r rest].
      + rewrite (Hlast _ _ _ Ew) in Hw. exfalso. apply Hns. apply last_no_end; auto.
      + destruct (Hmore _ _ _ _ _ Ew) as (rest' & E1 & ->). destruct (IH rest' E1 (last_rest _ _ _ Hu Hx Hw)) as (l & Hl & El).
        exists (ErrorSym sl :: l). split; [apply entries_wrong; auto|]. simpl. rewrite <- El. eapply H2; eauto.
  Qed.

  Lemma left_open g1 g2 g3 g4 w w0 nx v : starts_with view elem g1 -> starts_with view elem g2 -> pushes view elem g3 -> pushes view elem g4 ->
    left_value tix base X sep g1 g2 g3 g4 w w0 nx v -> forall x, nx = Some x -> tix x = sep ->
    exists l, view v = map elem l /\ forall rest l', ent rest l' -> ent (w0 ++ x :: rest) (l ++ l').
  Proof.
    intros H1 H2 H3 H4 H.
    assert (Hp : forall u a x rest l', no_end tix sep u -> tix x = sep -> piece tix base X w u (Some x) a -> ent rest l' -> ent (u ++ x :: rest) (a :: l')).
    { intros u a x rest l' Hu Hx Hpc Hr. inversion Hpc; subst; [apply entries_right|apply entries_wrong]; auto. }
    assert (Hw : forall a (i b : reducer N T E) l, which a i b l = i l \/ which a i b l = b l) by (intros [| |]; simpl; auto).
    induction H as [u nx a v Hu Hpc Hg|w0 x0 u nx v0 a v Hl IH Hx0 Hu Hpc Hg]; intros x -> Hx.
    - exists [a]. split; [|intros; simpl; auto]. simpl. destruct (Hw a g1 g2 [a]) as [E0|E0]; rewrite E0 in Hg; eauto.
    - destruct (IH x0 eq_refl Hx0) as (l & El & Hl'). exists (l ++ [a]). split.
      + rewrite map_app. simpl. rewrite <- El. destruct (Hw a g3 g4 [NonTerminal v0; Terminal x0; a]) as [E0|E0]; rewrite E0 in Hg; eauto.
      + intros rest l' Hr. rewrite <- !app_assoc. simpl. apply Hl'. auto.
  Qed.
  Lemma left_entries g1 g2 g3 g4 w v : starts_with view elem g1 -> starts_with view elem g2 -> pushes view elem g3 -> pushes view elem g4 -> (forall u, is_stmt tix base X u -> u <> []) ->
    left_value tix base X sep g1 g2 g3 g4 w w None v -> last_right tix base X sep w -> exists l, ent w l /\ view v = map elem l.
  Proof.
    intros H1 H2 H3 H4 Hne H Hw.
    assert (Hp : forall u a, no_end tix sep u -> piece tix base X w u None a -> is_stmt tix base X u -> ent u [a]).
    { intros u a Hu Hpc Hs. inversion Hpc; subst; [constructor; auto|exfalso..].
      - match goal with H : ~ begins _ _ _ _ |- _ => apply H; exists []; rewrite app_nil_r; exact Hs end.
      - eapply Hne; eauto. }
    assert (Hwh : forall a (i b : reducer N T E) l, which a i b l = i l \/ which a i b l = b l) by (intros [| |]; simpl; auto).
    inversion H as [u nx a v1 Hu Hpc Hg|w0 x0 u nx v0 a v1 Hl Hx0 Hu Hpc Hg E0]; subst nx.
    - subst. exists [a]. split; [apply Hp; auto; apply last_no_end; auto|]. simpl. destruct (Hwh a g1 g2 [a]) as [E0|E0]; rewrite E0 in Hg; eauto.
    - rewrite E0 in Hl, Hpc. destruct (left_open g1 g2 g3 g4 w w0 (Some x0) v0 H1 H2 H3 H4 Hl x0 eq_refl Hx0) as (l & El & Hl'). exists (l ++ [a]). subst v1. split.
      + apply Hl'. apply Hp; auto. destruct Hw as (u' & Hn & Hs & [E1|(w2 & x2 & Hx2 & E1)]).
        * exfalso. subst u'. rewrite <- E0 in Hn. apply (Hn x0); auto. apply in_or_app. simpl. auto.
        * rewrite E1 in E0. destruct (split_last tix sep _ _ _ _ _ _ Hu Hn Hx0 Hx2 E0) as (_ & _ & ->). auto.
      + rewrite map_app. simpl. rewrite <- El. destruct (Hwh a g3 g4 [NonTerminal v0; Terminal x0; a]) as [E2|E2]; rewrite E2 in Hg; eauto.
  Qed.
  Section Det.
    Hypothesis Hone : forall u a1 a2, value tix base (NT X) u a1 -> value tix base (NT X) u a2 -> a1 = a2.
    Hypothesis Hval : forall u a, value tix base (NT X) u a -> is_stmt tix base X u.
    Lemma split_first (u : list T) x r : forall u' x' r', no_end tix sep u -> no_end tix sep u' -> tix x = sep -> tix x' = sep -> u ++ x :: r = u' ++ x' :: r' -> u = u' /\ x = x' /\ r = r'.
    Proof.
      induction u as [|y u IH]; intros [|y' u'] x' r' H1 H2 Hx Hx' E0; simpl in E0.
      - injection E0 as -> ->. auto.
      - exfalso. injection E0 as -> _. apply (H2 y'); simpl; auto.
      - exfalso. injection E0 as -> _. apply (H1 x'); simpl; auto.
      - injection E0 as -> E0. destruct (IH u' x' r') as (-> & -> & ->); auto; intros z Hz; [apply H1|apply H2]; simpl; auto.
    Qed.
    Lemma entries_det w l : ent w l -> forall l', ent w l' -> l' = l.
    Proof.
      intros H. induction H as [u a Hu Hv|u x rest a l Hu Hx Hv Hr IH|u x rest sl l Hu Hx Hns Hsl Hr IH]; intros l' H';
        inversion H' as [u' a' Hu' Hv' E0|u' x' rest' a' l0 Hu' Hx' Hv' Hr' E0|u' x' rest' sl' l0 Hu' Hx' Hns' Hsl' Hr' E0].
      - f_equal. eauto.
      - exfalso. try rewrite <- E0 in Hu. eapply no_sep; eauto.
      - exfalso. try rewrite <- E0 in Hu. eapply no_sep; eauto.
      - exfalso. try rewrite E0 in Hu'. eapply no_sep; eauto.
      - destruct (split_first _ _ _ _ _ _ Hu' Hu Hx' Hx E0) as (-> & -> & ->). f_equal; eauto.
      - destruct (split_first _ _ _ _ _ _ Hu' Hu Hx' Hx E0) as (-> & -> & ->). exfalso. eauto.
      - exfalso. try rewrite E0 in Hu'. eapply no_sep; eauto.
      - destruct (split_first _ _ _ _ _ _ Hu' Hu Hx' Hx E0) as (-> & -> & ->). exfalso. eauto.
      - destruct (split_first _ _ _ _ _ _ Hu' Hu Hx' Hx E0) as (-> & -> & ->). f_equal; eauto. f_equal. eapply reported_det; eauto.
    Qed.
    Lemma entries_right_end w l : ent w l -> last_right tix base X sep w.
    Proof.
      assert (Hstep : forall u x rest, tix x = sep -> last_right tix base X sep rest -> last_right tix base X sep (u ++ x :: rest)).
      { intros u x rest Hx (u' & Hn & Hs & [->|(w0 & x' & Hx' & ->)]); exists u'; repeat split; auto; right.
        - exists u, x. auto.
        - exists (u ++ x :: w0), x'. rewrite <- app_assoc. auto. }
      intros H. induction H as [u a Hu Hv| |]; auto. exists u. eauto.
    Qed.
  End Det.
End Ways.

(** whenever the parsers return values, these stand for the same list: the entries of the input *)
Theorem C103_results : forall N T E (nix : N -> nat) (tix : T -> nat) e1 e2 e3 base X R1 R2 R3 sep (f1 f2 f3 g1 g2 g3 h1 h2 h3 h4 : reducer N T E) P1 P2 P3
    (A : Type) (view : N -> list A) (elem : arg N T -> A) w x v1 v2 v3,
  let s1 := stmt_list base X R1 sep f1 f2 f3 in let s2 := rec_list base X R2 sep g1 g2 g3 in let s3 := left_rec base X R3 sep h1 h2 h3 h4 in
  api_syntax nix tix s1 -> statement_rules base X R1 sep -> makes e1 s1 P1 [] -> productive (gram s1) ->
  api_syntax nix tix s2 -> statement_rules base X R2 sep -> makes e2 s2 P2 [] -> productive (gram s2) ->
  api_syntax nix tix s3 -> statement_rules base X R3 sep -> makes e3 s3 P3 [] -> productive (gram s3) ->
  inserts view elem f1 -> inserts view elem f2 -> starts_empty view f3 ->
  inserts view elem g1 -> inserts view elem g2 -> starts_with view elem g3 ->
  starts_with view elem h1 -> starts_with view elem h2 -> pushes view elem h3 -> pushes view elem h4 ->
  returns tix P1 (w ++ [x]) (ROk v1) -> returns tix P2 w (ROk v2) -> returns tix P3 w (ROk v3) ->
  exists l, entries tix base X sep w l /\ (forall l', entries tix base X sep w l' -> l' = l) /\ view v1 = map elem l /\ view v2 = map elem l /\ view v3 = map elem l.
Proof.
  intros N T E nix tix e1 e2 e3 base X R1 R2 R3 sep f1 f2 f3 g1 g2 g3 h1 h2 h3 h4 P1 P2 P3 A view elem w x v1 v2 v3 s1 s2 s3 Ha1 Hb1 Hm1 Hp1 Ha2 Hb2 Hm2 Hp2 Ha3 Hb3 Hm3 Hp3 F1 F2 F3 G1 G2 G3 K1 K2 K3 K4 Hr1 Hr2 Hr3.
  destruct (makes_made nix tix e3 s3 P3 [] Ha3 Hm3) as [ss Hm].
  assert (Hv1 : forall u a1 a2, value tix base (NT X) u a1 -> value tix base (NT X) u a2 -> a1 = a2) by (intros u a1 a2; eapply (value_unique tix base X R3 sep h1 h2 h3 h4); eauto).
  assert (Hv2 : forall u a, value tix base (NT X) u a -> is_stmt tix base X u) by (intros u a; eapply (value_stmt tix base X R3 sep h1 h2 h3 h4); eauto).
  assert (Hne : forall u, is_stmt tix base X u -> u <> []) by (intros u Hu ->; eapply (der_nonempty base X R3 sep Hb3); [exact Hu|reflexivity]).
  destruct (read_entries tix base X sep view elem g1 g2 g3 w v2 G1 G2 G3 (C101_items _ _ _ nix tix e2 base X R2 sep g1 g2 g3 P2 w v2 Ha2 Hb2 Hm2 Hp2 Hr2)) as (l & Hent & E2).
  pose proof (entries_right_end tix base X sep Hv2 w l Hent) as Hl.
  destruct (program_entries tix base X sep view elem f1 f2 f3 w x v1 F1 F2 F3 (C76_statements _ _ _ nix tix e1 base X R1 sep f1 f2 f3 P1 _ v1 Ha1 Hb1 Hm1 Hp1 Hr1) Hl) as (l1 & Hent1 & E1).
  destruct (left_entries tix base X sep view elem h1 h2 h3 h4 w v3 K1 K2 K3 K4 Hne (C102_items _ _ _ nix tix e3 base X R3 sep h1 h2 h3 h4 P3 w v3 Ha3 Hb3 Hm3 Hp3 Hr3) Hl) as (l3 & Hent3 & E3).
  assert (Hd : forall l', entries tix base X sep w l' -> l' = l) by (apply entries_det; auto).
  rewrite (Hd l1 Hent1) in E1. rewrite (Hd l3 Hent3) in E3. exists l. auto.
Qed.
Print Assumptions C103_results.

(** when the reducers do not fail, all three return values for every input that ends with an item, the first with a separator after it *)
Theorem C103_agree : forall N T E (nix : N -> nat) (tix : T -> nat) e1 e2 e3 base X R1 R2 R3 sep (f1 f2 f3 g1 g2 g3 h1 h2 h3 h4 : reducer N T E) P1 P2 P3
    (A : Type) (view : N -> list A) (elem : arg N T -> A) w x,
  let s1 := stmt_list base X R1 sep f1 f2 f3 in let s2 := rec_list base X R2 sep g1 g2 g3 in let s3 := left_rec base X R3 sep h1 h2 h3 h4 in
  api_syntax nix tix s1 -> statement_rules base X R1 sep -> makes e1 s1 P1 [] -> productive (gram s1) -> total_on tix s1 (w ++ [x]) ->
  api_syntax nix tix s2 -> statement_rules base X R2 sep -> makes e2 s2 P2 [] -> productive (gram s2) -> total_on tix s2 w ->
  api_syntax nix tix s3 -> statement_rules base X R3 sep -> makes e3 s3 P3 [] -> productive (gram s3) -> total_on tix s3 w ->
  inserts view elem f1 -> inserts view elem f2 -> starts_empty view f3 ->
  inserts view elem g1 -> inserts view elem g2 -> starts_with view elem g3 ->
  starts_with view elem h1 -> starts_with view elem h2 -> pushes view elem h3 -> pushes view elem h4 ->
  last_right tix base X sep w -> tix x = sep ->
  exists l v1 v2 v3, entries tix base X sep w l /\
    returns tix P1 (w ++ [x]) (ROk v1) /\ view v1 = map elem l /\ returns tix P2 w (ROk v2) /\ view v2 = map elem l /\ returns tix P3 w (ROk v3) /\ view v3 = map elem l.
Proof.
  intros N T E nix tix e1 e2 e3 base X R1 R2 R3 sep f1 f2 f3 g1 g2 g3 h1 h2 h3 h4 P1 P2 P3 A view elem w x s1 s2 s3 Ha1 Hb1 Hm1 Hp1 Ht1 Ha2 Hb2 Hm2 Hp2 Ht2 Ha3 Hb3 Hm3 Hp3 Ht3 F1 F2 F3 G1 G2 G3 K1 K2 K3 K4 Hl Hx.
  assert (Hne : forall u, is_stmt tix base X u -> u <> []) by (intros u Hu ->; eapply (der_nonempty base X R3 sep Hb3); [exact Hu|reflexivity]).
  assert (Hw : w <> []). { destruct Hl as (u & _ & Hs & [->|(w0 & y & _ & ->)]); [auto|destruct w0; discriminate]. }
  destruct (C76_exact _ _ _ nix tix e1 base X R1 sep f1 f2 f3 P1 _ Ha1 Hb1 Hm1 Hp1 Ht1) as (A1 & A2 & _).
  destruct (A2 ltac:(right; eauto)) as [v1 V1]. apply A1 in V1.
  destruct (C101_exact _ _ _ nix tix e2 base X R2 sep g1 g2 g3 P2 w Ha2 Hb2 Hm2 Hp2 Ht2) as (B1 & B2 & _).
  destruct (B2 Hl) as [v2 V2]. apply B1 in V2.
  destruct (C102_exact _ _ _ nix tix e3 base X R3 sep h1 h2 h3 h4 P3 w Ha3 Hb3 Hm3 Hp3 Ht3 Hw) as (D1 & D2 & _).
  assert (Hu : ~ unfinished tix base X sep w).
  { intros (u & Hn & Hu0 & Hbg & Hns & Hc). destruct Hc as [->|(w0 & y & Hy & ->)].
    - apply Hns. eapply last_no_end; eauto.
    - apply Hns. destruct Hl as (u' & Hn' & Hs & [<-|(w2 & x2 & Hx2 & E1)]).
      + exfalso. apply (Hn' y); auto. apply in_or_app. simpl. auto.
      + destruct (split_last tix sep _ _ _ _ _ _ Hn Hn' Hy Hx2 E1) as (_ & _ & ->). auto. }
  destruct (D2 Hu) as [v3 V3]. apply D1 in V3.
  destruct (C103_results N T E nix tix e1 e2 e3 base X R1 R2 R3 sep f1 f2 f3 g1 g2 g3 h1 h2 h3 h4 P1 P2 P3 A view elem w x v1 v2 v3) as (l & L1 & _ & L2 & L3 & L4); auto.
  exists l, v1, v2, v3. auto 10.
Qed.
Print Assumptions C103_agree.

(** ** Example: the items of [PropStmt]: X ::= E; E ::= E + n | n | ( E ), with n = 0, + = 1, the separator 2, ( = 3, ) = 4 *)
Definition wy_elem (a : arg vals nat) : list nat := match a with NonTerminal v => concat v | ErrorSym sl => 100 :: sl | Terminal x => [x] end.
Definition wy_ins (l : list (arg vals nat)) : gres vals nat := match l with [a; Terminal _; NonTerminal v] => GOk (wy_elem a :: v) | _ => GPanic end.
Definition wy_push (l : list (arg vals nat)) : gres vals nat := match l with [NonTerminal v; Terminal _; a] => GOk (v ++ [wy_elem a]) | _ => GPanic end.
Definition wy_one (l : list (arg vals nat)) : gres vals nat := match l with [a] => GOk [wy_elem a] | _ => GPanic end.
Definition wy_none (l : list (arg vals nat)) : gres vals nat := match l with [] => GOk [] | _ => GPanic end.
Definition wy1 : syntax vals nat nat := stmt_list st_base 0 1 2 wy_ins wy_ins wy_none.
Definition wy2 : syntax vals nat nat := rec_list st_base 0 1 2 wy_ins wy_ins wy_one.
Definition wy3 : syntax vals nat nat := left_rec st_base 0 1 2 wy_one wy_one wy_push wy_push.
Definition P_wy1 : parser vals nat nat := Eval vm_compute in made_parser (lr1_new env0 100 wy1).
Definition P_wy2 : parser vals nat nat := Eval vm_compute in made_parser (lr1_new env0 100 wy2).
Definition P_wy3 : parser vals nat nat := Eval vm_compute in made_parser (lr1_new env0 100 wy3).
Lemma wy_made : makes env0 wy1 P_wy1 [] /\ makes env0 wy2 P_wy2 [] /\ makes env0 wy3 P_wy3 [].
Proof. split; [mk|]. split; mk. Qed.
Ltac total := exists (fun _ _ => True); intros r args Hr (Hf & _) _; simpl in Hr; repeat destruct Hr as [<-|Hr]; try destruct Hr; simpl in *;
  repeat match goal with H : Forall2 _ (_ :: _) _ |- _ => inversion H; clear H; subst | H : Forall2 _ [] _ |- _ => inversion H; clear H; subst
    | H : fits _ _ ?a |- _ => destruct a; simpl in H; try contradiction end; simpl; eexists; (split; [reflexivity|exact I]).
Lemma wy_total w : total_on self wy1 w /\ total_on self wy2 w /\ total_on self wy3 w.
Proof. split; [total|]. split; total. Qed.
Lemma wy_collect : inserts id wy_elem wy_ins /\ starts_empty id wy_none /\ starts_with id wy_elem wy_one /\ pushes id wy_elem wy_push.
Proof. unfold inserts, starts_empty, starts_with, pushes, id. repeat split; simpl; intros; congruence. Qed.
(** n + , n , + , , ( , n n n , n *)
Definition w_wy : list nat := [0; 1; 2;  0; 2;  1; 2;  2;  3; 2;  0; 0; 0; 2;  0].
Lemma wy_last : last_right self st_base 0 2 w_wy.
Proof.
  exists [0]. split; [intros y Hy; simpl in Hy; unfold self; lia|]. split.
  - unfold is_stmt. change (kinds self [0]) with ([TSym 0] ++ []). change (NT 0) with (NT (r_lhs (mk_rule 0 [NT 2]))). constructor; [simpl; auto|]. constructor; [|constructor].
    change [TSym 0] with ([TSym 0] ++ []). change (NT 2) with (NT (r_lhs (mk_rule 2 [TM (TSym 0)]))). constructor; [simpl; auto|]. constructor; constructor.
  - right. exists (firstn 13 w_wy), 2. split; reflexivity.
Qed.
Example C103_example : exists l, entries self st_base 0 2 w_wy l /\ map wy_elem l = [[100; 0; 1]; [0]; [100; 1]; [100; 2]; [100; 3; 2]; [100; 0; 0; 0]; [0]] /\
  returns self P_wy1 (w_wy ++ [2]) (ROk (map wy_elem l)) /\ returns self P_wy2 w_wy (ROk (map wy_elem l)) /\ returns self P_wy3 w_wy (ROk (map wy_elem l)).
Proof.
  assert (H1 : returns self P_wy1 (w_wy ++ [2]) (ROk [[100; 0; 1]; [0]; [100; 1]; [100; 2]; [100; 3; 2]; [100; 0; 0; 0]; [0]])) by (exists 200; vm_compute; reflexivity).
  destruct wy_made as (M1 & M2 & M3), wy_collect as (K1 & K2 & K3 & K4), (wy_total w_wy) as (_ & T2 & T3), (wy_total (w_wy ++ [2])) as (T1 & _).
  destruct (C103_agree vals nat nat no_vals self env0 env0 env0 st_base 0 1 1 1 2 wy_ins wy_ins wy_none wy_ins wy_ins wy_one wy_one wy_one wy_push wy_push P_wy1 P_wy2 P_wy3 _ id wy_elem w_wy 2
    ltac:(raw_rules) st_rules M1 ltac:(apply (prod_check_sound _ 4); reflexivity) T1 ltac:(raw_rules) st_rules M2 ltac:(apply (prod_check_sound _ 4); reflexivity) T2
    ltac:(raw_rules) st_rules M3 ltac:(apply (prod_check_sound _ 4); reflexivity) T3 K1 K1 K2 K1 K1 K3 K3 K3 K4 K4 wy_last eq_refl) as (l & v1 & v2 & v3 & L & R1 & E1 & R2 & E2 & R3 & E3).
  unfold id in *. subst. exists l. pose proof (returns_det _ _ _ _ _ R1 H1) as E0. injection E0 as E0. auto.
Qed.

(** they differ when the last piece is wrong: for n , + the second rejects; for n , the third reports the first token of the input and
    the first (given n , ,) the separator *)
Theorem C103_end_refuted : returns self P_wy1 [0; 2; 1; 2] (ROk [[0]; [100; 1]]) /\ returns self P_wy2 [0; 2; 1] RNotFound /\ returns self P_wy3 [0; 2; 1] (ROk [[0]; [100; 1]]) /\
  returns self P_wy1 [0; 2; 2] (ROk [[0]; [100; 2]]) /\ returns self P_wy2 [0; 2] RNotFound /\ returns self P_wy3 [0; 2] (ROk [[0]; [100; 0]]).
Proof. repeat split; exists 200; vm_compute; reflexivity. Qed.
Print Assumptions C103_end_refuted.
