(** * Property C75: the numbering of the variants does not matter *)
From Coq Require Import List Arith Lia Bool Permutation.
From Verif Require Import Lib Grammar LrModel LrSpec LrSets LrStates LrNew LrTop LrMono GramRename ParseModel Trees ParseSpec ParseInv ParseTop ParseHash GenTop PropGen NumSpec ParseNum ParseExamples.
Import ListNotations.

(** ** C75: the same rules under two numberings *)
Theorem C75_numbering : forall N T E (nix nix' : N -> nat) (tix tix' : T -> nat) e e' start (rules : list (N * list (symbol N T unit) * reducer N T E)) P P' ws ws',
  same_classes nix nix' -> same_classes tix tix' ->
  makes e (coded nix tix start rules) P ws -> makes e' (coded nix' tix' start rules) P' ws' ->
  Permutation (map shape ws) (map shape ws') /\
  forall fuel w,
    parse_full tix P fuel w = parse_full tix' P' fuel w /\
    parse_calls tix P fuel w = parse_calls tix' P' fuel w /\
    map snd (parse_errors tix P fuel w) = map snd (parse_errors tix' P' fuel w).
Proof.
  intros N T E nix nix' tix tix' e e' start rules P P' ws ws' Hn Ht Hm Hm'.
  set (s := coded nix tix start rules) in *. set (s' := coded nix' tix' start rules) in *.
  pose proof (coded_api start rules nix tix) as Ha. pose proof (coded_api start rules nix' tix') as Ha'. fold s in Ha. fold s' in Ha'.
  destruct (makes_made nix tix e s P ws Ha Hm) as [ss M]. destruct (makes_made nix' tix' e' s' P' ws' Ha' Hm') as [ss' M'].
  assert (Hnd : forall n t e0 P0 ws0 ss0, makes e0 (coded n t start rules) P0 ws0 -> made (coded n t start rules) P0 ws0 ss0 ->
    ~ dangling (augment (gram (coded n t start rules)) (sx_start (coded n t start rules)) ss0) (length (gram (coded n t start rules)))).
  { intros n t e0 P0 ws0 ss0 Hmk M0. destruct Hmk as [He' [fuel' Hf]]. unfold lr1_new in Hf. apply bind_Ok in Hf as ([pb wb] & Hb & _).
    destruct (lr_new_inv e0 fuel' _ _ pb wb He' (md_eoi _ _ _ _ M0) Hb) as (ss2 & E2 & _ & _ & H2 & _).
    rewrite (md_ss _ _ _ _ M0) in E2. injection E2 as <-. exact H2. }
  pose proof (Hnd _ _ _ _ _ _ Hm M) as D. pose proof (Hnd _ _ _ _ _ _ Hm' M') as D'. clear Hnd. fold s in D. fold s' in D'.
  assert (Hst : nix start = ss <-> nix' start = ss').
  { pose proof (start_ss (gram s) (sx_start s) ss (md_fresh _ _ _ _ M) D) as A. pose proof (start_ss (gram s') (sx_start s') ss' (md_fresh _ _ _ _ M') D') as B.
    change (sx_start s) with (nix start) in A. change (sx_start s') with (nix' start) in B. rewrite A, B. unfold s, s'. rewrite !non_ex_iff.
    split; intros K (x & Hx & E0); apply K; exists x; split; auto; apply Hn; auto. }
  destruct (renaming_coded nix nix' tix tix' Hn Ht start rules ss ss' (md_fresh _ _ _ _ M) (md_fresh _ _ _ _ M') Hst) as (f & h & Hf & Hh & Hfx & Haug).
  fold s s' in Haug. pose proof (len_coded nix nix' tix tix' start rules) as Hlen. fold s s' in Hlen.
  split.
  - destruct (md_each _ _ _ _ M) as (c & -> & N1 & C1). destruct (md_each _ _ _ _ M') as (c' & -> & N2 & C2). rewrite Haug, <- Hlen in C2. apply (warns_ren f h Hf Hh _ _ _ _ N1 N2 C1 C2).
  - intros fuel w.
    assert (EP : P = mk_lr1 (pr_tab P) (gens s ++ [fun _ => GPanic])) by (rewrite <- (md_gens _ _ _ _ M); destruct P; reflexivity).
    assert (EP' : P' = mk_lr1 (pr_tab P') (gens s ++ [fun _ => GPanic])).
    { unfold s. rewrite (gens_coded nix nix' tix tix' start rules). fold s'. rewrite <- (md_gens _ _ _ _ M'); destruct P'; reflexivity. }
    pose proof (md_can _ _ _ _ M') as C2. rewrite Haug, <- Hlen in C2.
    assert (Hocc : forall t, occurs (augment (gram s) (sx_start s) ss) (TSym t) -> exists x, In x (tok_ex rules) /\ tix x = t).
    { intros t (r & Hr & H). apply (occ_ex start rules nix tix t). unfold augment in Hr. apply in_app_iff in Hr as [Hr|[<-|[]]]; [exists r; auto|]. simpl in H. destruct H as [H|[]]. discriminate. }
    destruct (num_loop tix tix' f h Hf Hh _ _ (pr_tab P) (pr_tab P') (gens s ++ [fun _ => GPanic]) (md_can _ _ _ _ M) C2) with (fuel := fuel) (s1 := ps_init P w) (s2 := ps_init P' w) as (B1 & B2 & B3).
    + intros x Hx. destruct (Hocc _ Hx) as (y & Hy & Ey). rewrite <- Ey, (Hfx y Hy). apply Ht; auto.
    + intros x t Hx Ex. destruct (Hocc _ Hx) as (y & Hy & <-). rewrite (Hfx y Hy) in Ex. apply Ht; auto.
    + rewrite EP, EP'. apply num_init.
    + rewrite <- EP, <- EP' in B1, B2, B3. auto.
Qed.
Print Assumptions C75_numbering.

(** ** C75: a parser is made under one numbering exactly when it is made under the other *)
Theorem C75_builds : forall N T E (nix nix' : N -> nat) (tix tix' : T -> nat) e e' start (rules : list (N * list (symbol N T unit) * reducer N T E)),
  same_classes nix nix' -> same_classes tix tix' -> lr_env_ok e -> lr_env_ok e' ->
  (exists r, In r rules /\ nix (fst (fst r)) = nix start) ->
  ((exists P ws, makes e (coded nix tix start rules) P ws) <-> (exists P ws, makes e' (coded nix' tix' start rules) P ws)).
Proof.
  intros N T E nix nix' tix tix' e e' start rules Hn Ht He He' (r0 & Hr0 & Er0).
  set (s := coded nix tix start rules) in *. set (s' := coded nix' tix' start rules) in *.
  pose proof (coded_api start rules nix tix) as Ha. pose proof (coded_api start rules nix' tix') as Ha'. fold s in Ha. fold s' in Ha'.
  pose proof (api_no_eoi _ _ _ Ha) as Eo. pose proof (api_no_eoi _ _ _ Ha') as Eo'.
  destruct (lr_new_ok e (gram s) (sx_start s) He Eo) as (ss & Ess & Hss & F & r & HF & Hr).
  destruct (lr_new_ok e' (gram s') (sx_start s') He' Eo') as (ss' & Ess' & Hss' & F' & r' & HF' & Hr').
  assert (Hin : In (fst (fst r0)) (non_ex rules)) by (apply in_flat_map; exists r0; split; auto; left; auto).
  assert (Hst : nix start = ss <-> nix' start = ss').
  { split; intros E0; exfalso; [apply Hss|apply Hss']; apply non_ex_iff; exists (fst (fst r0)); (split; [auto|]); [congruence|]. rewrite <- E0. apply Hn. auto. }
  destruct (renaming_coded nix nix' tix tix' Hn Ht start rules ss ss' Hss Hss' Hst) as (f & h & Hf & Hh & _ & Haug). fold s s' in Haug.
  pose proof (len_coded nix nix' tix tix' start rules) as Hlen. fold s s' in Hlen.
  assert (Hd : dangling (augment (gram s') (sx_start s') ss') (length (gram s')) <-> dangling (augment (gram s) (sx_start s) ss) (length (gram s))) by (rewrite Haug, <- Hlen; apply dangling_ren; auto).
  split; intros (P & ws & _ & fuel & Hf0); unfold lr1_new in Hf0; apply bind_Ok in Hf0 as ([a b] & Hab & _).
  - destruct (lr_new_inv e fuel (gram s) (sx_start s) a b He Eo Hab) as (ss2 & E2 & _ & _ & Hnd & _). rewrite Ess in E2. injection E2 as <-.
    destruct r' as [[p' w']| |]; [|exfalso; apply Hnd, Hd; exact Hr'|contradiction]. eexists _, _. split; auto. exists F'. unfold lr1_new. change (map cr_rule (sx_rules s')) with (gram s'). rewrite HF' by auto. reflexivity.
  - destruct (lr_new_inv e' fuel (gram s') (sx_start s') a b He' Eo' Hab) as (ss2 & E2 & _ & _ & Hnd & _). rewrite Ess' in E2. injection E2 as <-.
    destruct r as [[p' w']| |]; [|exfalso; apply Hnd, Hd; exact Hr|contradiction]. eexists _, _. split; auto. exists F. unfold lr1_new. change (map cr_rule (sx_rules s)) with (gram s). rewrite HF by auto. reflexivity.
Qed.
Print Assumptions C75_builds.

(** ** Examples *)
(** E ::= E + E | id | ( error ): ambiguous, with an error rule *)
Definition r_zero : reducer nat tk nat := fun _ => GOk 0.
Definition amb_rules : list (nat * list (symbol nat tk unit) * reducer nat tk nat) :=
  [ (nE, [NonTerminal nE; Terminal (kPlus, 0); NonTerminal nE], r_sum);
    (nE, [Terminal (kId, 0)], r_id);
    (nE, [Terminal (kL, 0); ErrorSym tt; Terminal (kR, 0)], r_zero) ].
(** the variants of both enumerations listed in another order, with others in between *)
Definition renum (n : nat) : nat := if n <=? 4 then 2 * (4 - n) + 1 else n + n.
Definition tkix' (x : tk) : nat := renum (fst x).
Lemma renum_classes {A} (ix : A -> nat) : same_classes ix (fun x => renum (ix x)).
Proof.
  intros a b. unfold renum. split; [intros ->; auto|]. destruct (ix a <=? 4) eqn:Ea; destruct (ix b <=? 4) eqn:Eb; rewrite ?Nat.leb_le, ?Nat.leb_gt in *; lia.
Qed.
Definition amb1 : stx := coded nix0 tkix nE amb_rules.
Definition amb2 : stx := coded renum tkix' nE amb_rules.
Definition w_amb : list tk := [(kId, 1); (kPlus, 0); (kL, 0); (kPlus, 0); (9, 9); (kPlus, 0); (kR, 0); (kPlus, 0); (kId, 3)].
Example C75_example : same_classes nix0 renum /\ same_classes tkix tkix' /\
  makes env0 amb1 (fst (build env0 amb1)) (snd (build env0 amb1)) /\ makes env1 amb2 (fst (build env1 amb2)) (snd (build env1 amb2)) /\
  snd (build env0 amb1) <> [] /\ snd (build env0 amb1) <> snd (build env1 amb2) /\ fst (build env0 amb1) <> fst (build env1 amb2) /\
  parse_full tkix (fst (build env0 amb1)) 100 w_amb = Ok (ROk 4, []) /\ map snd (parse_errors tkix (fst (build env0 amb1)) 100 w_amb) = [3; 3; 4; 5] /\
  parse_full tkix' (fst (build env1 amb2)) 100 w_amb = Ok (ROk 4, []) /\ map snd (parse_errors tkix' (fst (build env1 amb2)) 100 w_amb) = [3; 3; 4; 5].
Proof.
  split; [apply (renum_classes nix0)|]. split; [apply (renum_classes tkix)|].
  split; [apply build_makes; [apply env0_ok|vm_compute; reflexivity]|]. split; [apply build_makes; [apply env1_ok|vm_compute; reflexivity]|].
  vm_compute. repeat split; try congruence.
Qed.

(** without a rule for the start symbol the construction fails under one numbering only *)
Theorem C75_start_rule_needed : exists (nix nix' : nat -> nat) (start : nat), same_classes nix nix' /\
  (exists P ws, makes env0 (coded nix tkix start ([] : list (nat * list (symbol nat tk unit) * reducer nat tk nat))) P ws) /\
  ~ (exists P ws, makes env0 (coded nix' tkix start ([] : list (nat * list (symbol nat tk unit) * reducer nat tk nat))) P ws).
Proof.
  exists nix0, S, 0. split; [intros a b; unfold nix0; lia|]. split.
  - exists (fst (build env0 (coded nix0 tkix 0 []))), (snd (build env0 (coded nix0 tkix 0 []))). apply build_makes; [apply env0_ok|vm_compute; reflexivity].
  - intros (P & ws & _ & fuel & H). unfold lr1_new in H. apply bind_Ok in H as ([a b] & H & _).
    assert (K : lr_new env0 100 [] 1 = Panic) by (vm_compute; reflexivity).
    apply (lr_new_mono env0 fuel (fuel + 100)) in H; [|congruence|lia]. apply (lr_new_mono env0 100 (fuel + 100)) in K; [|congruence|lia].
    change (map cr_rule (sx_rules (coded S tkix 0 []))) with (@nil rule) in H. change (sx_start (coded S tkix 0 [])) with 1 in H. congruence.
Qed.
Print Assumptions C75_start_rule_needed.
