(** * Property C94: the macros, from the text to what the generated functions do *)
From Coq Require Import List Arith Lia Bool NArith String Ascii Permutation.
From Verif Require Import Lib Hir NfaPath NfaSem NfaModel NfaProofs NfaExact TokNfa DfaModel DfaEdges DfaProofs DfaTop MinModel MinProofs MinTop TokModel TokSpec TokProofs TokTop TokMore MinSafe TokExamples PropTok PropBuild.
From Verif Require Import Grammar LrModel LrSpec ParseModel ParseSpec GenModel GenSpec GenProofs SynModel SynSpec SynProofs ParseExamples PropParse PropLr PropGen PropSyn TextModel TextSpec.
Import ListNotations.

Section Meaning.
  Context {Vis Path Expr Typ Pat N T E : Type} (nix : N -> nat) (tix : T -> nat).
  Variables (tval : Expr -> T) (nval : Expr -> N) (red : Pat -> Expr -> reducer N T E).
  Local Notation input := (syn_input Vis Path Expr Typ Pat).
  Lemma means_map K V W (f : V -> W) (items : list (K * V)) k w : means (map (fun kv => (fst kv, f (snd kv))) items) k w <-> exists v, means items k v /\ w = f v.
  Proof.
    split.
    - intros (b & a & E0 & Hu). apply map_eq_app in E0 as (b' & a' & -> & <- & E0). destruct a' as [|[k' v] a']; [discriminate|]. cbn in E0. injection E0 as <- <- <-.
      exists v. split; auto. exists b', a'. split; auto. unfold unknown in *. rewrite map_map in Hu. exact Hu.
    - intros (v & (b & a & -> & Hu) & ->). exists (map (fun kv => (fst kv, f (snd kv))) b), (map (fun kv => (fst kv, f (snd kv))) a). split; [rewrite map_app; reflexivity|].
      unfold unknown in *. rewrite map_map. exact Hu.
  Qed.
  Definition bnf_of (r : syn_rule Expr Pat) : bnf_rule N T E := mk_bnf (sr_key r) (sr_rule r) (red (sr_pat r) (sr_gen r)).
  Lemma nth_lt A (l : list A) i x : nth_error l i = Some x -> i < List.length l.
  Proof. intros H. apply nth_error_Some. congruence. Qed.
  Lemma rule_name_ext (a b : list (bnf_rule N T E)) i n : i < List.length a -> rule_name (a ++ b) i n <-> rule_name a i n.
  Proof.
    intros Hi. assert (Ext : forall k, k <= i -> nth_error (a ++ b) k = nth_error a k) by (intros k Hk; apply nth_error_app1; lia).
    split; intros (j & r & Hj & Hr & Hk & Hf); exists j, r; (split; [auto|]); [rewrite Ext in Hr by lia|rewrite Ext by lia]; repeat split; auto; intros k r' Hlt Hn; apply (Hf k r' Hlt); [rewrite Ext by lia|rewrite Ext in Hn by lia]; auto.
  Qed.
  Lemma front_rule l n : name_in_front l n -> l <> [] /\ rule_name (map bnf_of l) (List.length l - 1) n.
  Proof.
    induction 1 as [above r n Hk|above r n Hk H [Hne IH]]; (split; [intros F; apply app_eq_nil in F as [_ F]; discriminate|]); rewrite map_app, app_length; cbn [List.length map];
      replace (List.length above + 1 - 1) with (List.length above) by lia.
    - exists (List.length above), (bnf_of r). split; [lia|]. split; [rewrite nth_error_app2, map_length, Nat.sub_diag by (rewrite map_length; lia); reflexivity|]. split; [exact Hk|intros; lia].
    - destruct IH as (j & r0 & Hj & Hr & Hn & Hf). assert (0 < List.length above) by (destruct above; [congruence|cbn; lia]). exists j, r0. split; [lia|].
      split; [rewrite nth_error_app1 by (rewrite map_length; lia); exact Hr|]. split; [exact Hn|]. intros k r' Hlt Hk'. destruct (Nat.eq_dec k (List.length above)) as [->|Hd].
      + rewrite nth_error_app2, map_length, Nat.sub_diag in Hk' by (rewrite map_length; lia). injection Hk' as <-. exact Hk.
      + rewrite nth_error_app1 in Hk' by (rewrite map_length; lia). apply (Hf k r'); [lia|auto].
  Qed.
  Lemma rule_front l : forall n, l <> [] -> rule_name (map bnf_of l) (List.length l - 1) n -> name_in_front l n.
  Proof.
    induction l as [|r l IH] using rev_ind; intros n Hne H; [congruence|]. rewrite map_app, app_length in H. cbn [List.length map] in H. replace (List.length l + 1 - 1) with (List.length l) in H by lia.
    destruct H as (j & r0 & Hj & Hr & Hn & Hf). destruct (Nat.eq_dec j (List.length l)) as [->|Hd].
    - rewrite nth_error_app2, map_length, Nat.sub_diag in Hr by (rewrite map_length; lia). injection Hr as <-. apply front_own. exact Hn.
    - apply front_above.
      + apply (Hf (List.length l) (bnf_of r)); [lia|]. rewrite nth_error_app2, map_length, Nat.sub_diag by (rewrite map_length; lia). reflexivity.
      + apply IH; [intros ->; cbn in *; lia|]. rewrite nth_error_app1 in Hr by (rewrite map_length; lia). exists j, r0. split; [lia|]. repeat split; auto.
        intros k r' Hlt Hk. apply (Hf k r'); [lia|]. rewrite nth_error_app1 by (rewrite map_length; lia). exact Hk.
  Qed.
  Lemma items_same (si : input) l l' : Forall2 (item_stands_for tval nval si) l l' <-> Forall2 (sym_means (input_of tval nval red si)) l l'.
  Proof.
    assert (H : forall x y, item_stands_for tval nval si x y <-> sym_means (input_of tval nval red si) x y).
    { intros [k|n|] y; cbn [item_stands_for sym_means].
      - destruct y as [n|t|u]; [split; [intros (v & _ & F); discriminate|tauto]| |split; [intros (v & _ & F); discriminate|tauto]]. cbn [input_of mi_tokens]. rewrite means_map. split; intros (v & H & E0); exists v; split; auto; congruence.
      - destruct y as [m|t|u]; [|split; [intros (v & _ & F); discriminate|tauto]|split; [intros (v & _ & F); discriminate|tauto]]. cbn [input_of mi_symbols]. rewrite means_map. split; intros (v & H & E0); exists v; split; auto; congruence.
      - destruct y as [m|t|u]; [split; [intros (v & F); discriminate|tauto]|split; [intros (v & F); discriminate|tauto]|]. split; [auto|intros _; exists u; auto]. }
    split; intros F; induction F; constructor; auto; apply H; auto.
  Qed.
  Lemma rules_same (si : input) todo : forall done l, rules_stand_for nix tix tval nval red si done todo l <->
    List.length l = List.length todo /\ forall i r, nth_error todo i = Some r -> exists n v items,
      rule_name (map bnf_of (done ++ todo)) (List.length done + i) n /\ means (si_symbols si) n v /\ Forall2 (item_stands_for tval nval si) (sr_rule r) items /\
      nth_error l i = Some (rule_new nix tix (nval v) items (red (sr_pat r) (sr_gen r))).
  Proof.
    assert (Fr : forall done r rest n, rule_name (map bnf_of (done ++ r :: rest)) (List.length done) n <-> name_in_front (done ++ [r]) n).
    { intros done r rest n. replace (done ++ r :: rest) with ((done ++ [r]) ++ rest) by (rewrite <- app_assoc; reflexivity). rewrite map_app, rule_name_ext by (rewrite map_length, app_length; cbn; lia).
      replace (List.length done) with (List.length (done ++ [r]) - 1) by (rewrite app_length; cbn; lia). split; [apply rule_front; intros F; apply app_eq_nil in F as [_ F]; discriminate|apply front_rule]. }
    induction todo as [|r todo IH]; intros done l.
    - split.
      + intros H. inversion H; subst. split; auto. intros [|i] r F; discriminate.
      + intros [H _]. destruct l; [constructor|discriminate].
    - split.
      + intros H. inversion H as [|done' r' todo' n v items l' Hn Hv Hi Hr]; subst. apply IH in Hr as [Hl Hr]. split; [cbn; lia|]. intros [|i] r0 H0; cbn [nth_error] in H0.
        * injection H0 as <-. exists n, v, items. rewrite Nat.add_0_r, Fr. auto.
        * destruct (Hr i r0 H0) as (n' & v' & items' & H1 & H2). exists n', v', items'. rewrite <- app_assoc, app_length in H1. cbn in H1. replace (List.length done + S i) with (List.length done + 1 + i) by lia. auto.
      + intros [Hl H]. destruct l as [|c l]; [discriminate|]. destruct (H 0 r eq_refl) as (n & v & items & H1 & H2 & H3 & H4). injection H4 as ->. rewrite Nat.add_0_r, Fr in H1. econstructor; eauto.
        apply IH. split; [cbn in Hl; lia|]. intros i r0 H0. destruct (H (S i) r0 H0) as (n' & v' & items' & A1 & A2). exists n', v', items'. rewrite <- app_assoc, app_length. cbn [List.length]. replace (List.length done + 1 + i) with (List.length done + S i) by lia. auto.
  Qed.
  Lemma stands_written (si : input) s : stands_for nix tix tval nval red si s <-> written nix tix (input_of tval nval red si) s.
  Proof.
    unfold stands_for, written. rewrite rules_same. cbn [mi_symbols mi_start mi_rules input_of List.length app]. rewrite map_length.
    assert (Hs : (exists v, means (si_symbols si) (si_start si) v /\ sx_start s = nix (nval v)) <-> exists v, means (map (fun kv => (fst kv, nval (snd kv))) (si_symbols si)) (si_start si) v /\ sx_start s = nix v).
    { split; [intros (v & H & E0); exists (nval v); split; auto; apply means_map; eauto|]. intros (w & H & E0). apply means_map in H as (v & H & ->). eauto. }
    rewrite Hs. apply and_iff_compat_l, and_iff_compat_l. change (map (fun r => mk_bnf (sr_key r) (sr_rule r) (red (sr_pat r) (sr_gen r))) (si_rules si)) with (map bnf_of (si_rules si)). split.
    - intros H i r Hr. rewrite nth_error_map in Hr. destruct (nth_error (si_rules si) i) as [r0|] eqn:E0; [|discriminate]. cbn in Hr. injection Hr as <-.
      destruct (H i r0 E0) as (n & v & items & H1 & H2 & H3 & H4). exists n, (nval v), items. split; auto. split; [apply means_map; eauto|]. split; [apply items_same; auto|auto].
    - intros H i r Hr. destruct (H i (bnf_of r)) as (n & w & items & H1 & H2 & H3 & H4); [rewrite nth_error_map, Hr; reflexivity|]. apply means_map in H2 as (v & H2 & ->).
      exists n, v, items. split; auto. split; auto. split; [apply items_same; auto|auto].
  Qed.
  Lemma differ_distinct (si : input) : names_differ nix tix tval nval si -> distinct tix (mi_tokens (input_of tval nval red si)) /\ distinct nix (mi_symbols (input_of tval nval red si)).
  Proof.
    intros [H1 H2]. split; intros k v k' v' Hi Hi' E0; cbn in Hi, Hi'; apply in_map_iff in Hi as ([a b] & Ea & Hi); apply in_map_iff in Hi' as ([a' b'] & Ea' & Hi'); cbn in Ea, Ea'; injection Ea as <- <-; injection Ea' as <- <-; eauto.
  Qed.
End Meaning.

Section Dec.
  Context {N T E : Type}.
  Lemma unknown_dec K V (dec : forall a b : K, {a = b} + {a <> b}) (items : list (K * V)) k : unknown items k \/ ~ unknown items k.
  Proof. unfold unknown. destruct (in_dec dec k (map fst items)); tauto. Qed.
  Lemma key_dec : forall a b : token_key, {a = b} + {a <> b}.
  Proof. decide equality; apply string_dec. Defined.
  Lemma exists_dec A (P : A -> Prop) (l : list A) : (forall x, In x l -> P x \/ ~ P x) -> (exists x, In x l /\ P x) \/ ~ exists x, In x l /\ P x.
  Proof.
    induction l as [|x l IH]; intros H; [right; intros (x & [] & _)|]. destruct (H x (or_introl eq_refl)) as [Hx|Hx]; [left; exists x; cbn; auto|].
    destruct IH as [(y & Hy & Py)|F]; [intros y Hy; apply H; right; auto|left; exists y; cbn; auto|]. right. intros (y & [<-|Hy] & Py); [auto|apply F; eauto].
  Qed.
  Lemma bad_dec (mi : minput N T E) : bad_name mi \/ ~ bad_name mi.
  Proof.
    unfold bad_name. destruct (unknown_dec _ _ string_dec (mi_symbols mi) (mi_start mi)) as [H|H1]; [auto|].
    assert (D2 : (exists r rest, mi_rules mi = r :: rest /\ bn_key r = Follow) \/ ~ exists r rest, mi_rules mi = r :: rest /\ bn_key r = Follow).
    { destruct (mi_rules mi) as [|r rest]; [right; intros (r & rest & F & _); discriminate|]. destruct (bn_key r) as [n|] eqn:Ek; [right; intros (r0 & rest0 & F & F'); injection F as <- <-; congruence|left; eauto]. }
    destruct D2 as [H2|H2]; [auto|].
    destruct (exists_dec _ (fun r => (exists n, bn_key r = Named n /\ unknown (mi_symbols mi) n) \/ (exists k, In (BTerminal k) (bn_rule r) /\ unknown (mi_tokens mi) k) \/ (exists n, In (BNonTerminal n) (bn_rule r) /\ unknown (mi_symbols mi) n)) (mi_rules mi)) as [H3|H3];
      [|left; right; right; exact H3|tauto].
    intros r _. assert (Da : (exists n, bn_key r = Named n /\ unknown (mi_symbols mi) n) \/ ~ exists n, bn_key r = Named n /\ unknown (mi_symbols mi) n).
    { destruct (bn_key r) as [n|]; [|right; intros (n & F & _); discriminate]. destruct (unknown_dec _ _ string_dec (mi_symbols mi) n) as [H|H]; [left; eauto|right; intros (m & F & F'); injection F as <-; auto]. }
    destruct Da as [Da|Da]; [auto|].
    destruct (exists_dec _ (fun x => match x with BTerminal k => unknown (mi_tokens mi) k | _ => False end) (bn_rule r)) as [(x & Hx & Hu)|Db].
    { intros [k|n|] _; auto. apply unknown_dec, key_dec. }
    { destruct x as [k|n|]; try contradiction. left. right. left. eauto. }
    destruct (exists_dec _ (fun x => match x with BNonTerminal k => unknown (mi_symbols mi) k | _ => False end) (bn_rule r)) as [(x & Hx & Hu)|Dc].
    { intros [k|n|] _; auto. apply unknown_dec, string_dec. }
    { destruct x as [k|n|]; try contradiction. left. right. right. eauto. }
    right. intros [F|[(k & F & F')|(n & F & F')]]; [auto|apply Db; exists (BTerminal k); auto|apply Dc; exists (BNonTerminal n); auto].
  Qed.
  Lemma means_known K V (items : list (K * V)) k v : means items k v -> ~ unknown items k.
  Proof. intros (b & a & -> & _) F. apply F. rewrite map_app. apply in_or_app. right. left. reflexivity. Qed.
  Lemma bad_not_written (nix : N -> nat) (tix : T -> nat) (mi : minput N T E) s : bad_name mi -> ~ written nix tix mi s.
  Proof.
    intros Hb ((v0 & Hs & _) & _ & Hw). destruct Hb as [Hb|[(r & rest & El & Ek)|(r & Hr & Hb)]]; [exact (means_known _ _ _ _ _ Hs Hb)|..].
    - destruct (Hw 0 r) as (n & v & l & (j & r0 & Hj & Hr0 & Hk & _) & _); [rewrite El; reflexivity|]. assert (j = 0) as -> by lia. rewrite El in Hr0. injection Hr0 as <-. congruence.
    - apply In_nth_error in Hr as [i Hi]. destruct (Hw i r Hi) as (n & v & l & Hn & Hv & Hl & _). destruct Hb as [(m & Ek & Hu)|[(k & Hk & Hu)|(m & Hm & Hu)]].
      + destruct Hn as (j & r0 & Hj & Hr0 & Hk & Hf). destruct (Nat.eq_dec j i) as [->|Hd]; [|rewrite (Hf i r) in Ek by (auto; lia); discriminate]. rewrite Hi in Hr0. injection Hr0 as <-. rewrite Ek in Hk. injection Hk as <-. exact (means_known _ _ _ _ _ Hv Hu).
      + clear - Hl Hk Hu. induction Hl as [|x y xs ys Hx _ IH]; [contradiction|]. destruct Hk as [->|Hk]; [|auto]. destruct y; try contradiction. exact (means_known _ _ _ _ _ Hx Hu).
      + clear - Hl Hm Hu. induction Hl as [|x y xs ys Hx _ IH]; [contradiction|]. destruct Hm as [->|Hm]; [|auto]. destruct y; try contradiction. exact (means_known _ _ _ _ _ Hx Hu).
  Qed.
End Dec.

Section Parser.
  Context (keyword : string -> bool) {Vis Path Expr Typ Pat N T E : Type} (nix : N -> nat) (tix : T -> nat).
  Context (p_vis : list ttree -> option (Vis * list ttree)) (p_path : list ttree -> option (Path * list ttree)) (p_expr : list ttree -> option (Expr * list ttree))
    (p_type : list ttree -> option (Typ * list ttree)) (p_pat : list ttree -> option (Pat * list ttree)).
  Context (is_vis : list ttree -> Vis -> Prop) (is_path : list ttree -> Path -> Prop) (is_expr : list ttree -> Expr -> Prop) (is_type : list ttree -> Typ -> Prop) (is_pat : list ttree -> Pat -> Prop).
  Context (tval : Expr -> T) (nval : Expr -> N) (red : Pat -> Expr -> reducer N T E).
  Hypotheses (R1 : reads p_vis is_vis before_fn) (R2 : reads p_path is_path before_brace) (R3 : reads p_expr is_expr after_expr)
    (R4 : reads p_type is_type (before_punct ";"%char)) (R5 : reads p_pat is_pat before_arrow).
  Local Notation use := (parser_use keyword p_vis p_path p_expr p_type p_pat nix tix tval nval red).
  Local Notation text := (parser_text keyword is_vis is_path is_expr is_type is_pat).
  Lemma use_text e g fuel ts si : text ts si ->
    use e g fuel ts = match (do kp <- expand e fuel (input_of tval nval red si); generated nix tix g (input_of tval nval red si) (fst kp) (snd kp)) with Ok P => MOk P | Panic => MPanic | OutOfFuel => MFuel end.
  Proof. intros Ht. apply (C54_parser_notation keyword _ _ _ _ _ p_vis p_path p_expr p_type p_pat is_vis is_path is_expr is_type is_pat R1 R2 R3 R4 R5) in Ht. unfold parser_use. rewrite Ht. reflexivity. Qed.
  Lemma use_ok e g fuel ts si mi keys p P : text ts si -> input_of tval nval red si = mi -> expand e fuel mi = Ok (keys, p) -> generated nix tix g mi keys p = Ok P -> use e g fuel ts = MOk P.
  Proof. intros Ht <- Hx Hp. rewrite (use_text e g fuel ts si Ht), Hx. cbn [bind fst snd]. rewrite Hp. reflexivity. Qed.
  Lemma agrees e e' g ts si s P ws fuel P' : lr_env_ok e -> gen_env_ok g -> text ts si -> stands_for nix tix tval nval red si s -> names_differ nix tix tval nval si ->
    makes e' s P ws -> use e g fuel ts = MOk P' ->
    forall fuel w, parse_full tix P' fuel w = parse_full tix P fuel w /\ parse_calls tix P' fuel w = parse_calls tix P fuel w /\ parse_errors tix P' fuel w = parse_errors tix P fuel w.
  Proof.
    intros He Hg Ht Hs Hd Hm Hu. rewrite (use_text e g fuel ts si Ht) in Hu. apply (stands_written nix tix tval nval red) in Hs. apply (differ_distinct nix tix tval nval red) in Hd as [D1 D2].
    destruct (expand e fuel (input_of tval nval red si)) as [[keys p]| |] eqn:Ex; try discriminate. cbn [bind fst snd] in Hu.
    destruct (C38_macro_agrees _ _ _ nix tix e e' g (input_of tval nval red si) s P ws fuel keys p He Hg D1 D2 Hs Hm Ex) as (P0 & HP0 & H). rewrite HP0 in Hu. injection Hu as <-. exact H.
  Qed.
  Lemma outcomes e g ts si : lr_env_ok e -> gen_env_ok g -> text ts si -> exists F,
    (exists P', (forall fuel, F <= fuel -> use e g fuel ts = MOk P') /\ exists s, stands_for nix tix tval nval red si s /\ LrModel.p_rules (pr_tab P') = gram s /\ pr_gens P' = gens s) \/
    ((forall fuel, F <= fuel -> use e g fuel ts = MPanic) /\ ((forall s, ~ stands_for nix tix tval nval red si s) \/ exists n, without_rules si n)).
  Proof.
    intros He Hg Ht. destruct (C39_panics _ _ _ nix tix e g (input_of tval nval red si) He Hg) as [Hb Hn]. destruct (bad_dec (input_of tval nval red si)) as [B|B].
    - exists 0. right. split; [intros fuel _; rewrite (use_text e g fuel ts si Ht), Hb; auto|]. left. intros s Hs. apply (stands_written nix tix tval nval red) in Hs. exact (bad_not_written nix tix _ s B Hs).
    - destruct (Hn B) as (F & [(keys & p & Hk & P & HP)|(Hp & n & Hu)]); exists F; [left|right].
      + exists P. split; [intros fuel Hf; rewrite (use_text e g fuel ts si Ht), Hk by auto; cbn [bind fst snd]; rewrite HP; reflexivity|].
        destruct (C39_alternatives _ _ _ nix tix e F g _ keys p P (Hk F (le_n F)) HP) as (s & Hs & H1 & H2). exists s. split; [apply stands_written; exact Hs|auto].
      + split; [intros fuel Hf; rewrite (use_text e g fuel ts si Ht), Hp by auto; reflexivity|]. right. exists n. destruct Hu as [Hu Hr]. cbn [input_of mi_start mi_rules] in Hu, Hr. split.
        * destruct Hu as [Hu|(r & Hr0 & Hi)]; [auto|]. right. apply in_map_iff in Hr0 as (r0 & <- & Hr0). exists r0. auto.
        * intros r Hr0 Ek. apply In_nth_error in Hr0 as [i Hi]. apply (Hr i). exists i, (bnf_of red r). split; [lia|]. split; [rewrite nth_error_map, Hi; reflexivity|]. split; [exact Ek|intros; lia].
  Qed.
End Parser.

(** ** The text of [parser!] *)
(** the function that [parser!] generates returns a parser that does what the parser does that [LR1Parser::new] makes for the
    syntax written in the text *)
Theorem C94_parser : forall keyword Vis Path Expr Typ Pat N T E (nix : N -> nat) (tix : T -> nat) p_vis p_path p_expr p_type p_pat
    (is_vis : list ttree -> Vis -> Prop) (is_path : list ttree -> Path -> Prop) (is_expr : list ttree -> Expr -> Prop)
    (is_type : list ttree -> Typ -> Prop) (is_pat : list ttree -> Pat -> Prop) (tval : Expr -> T) (nval : Expr -> N) (red : Pat -> Expr -> reducer N T E),
  reads p_vis is_vis before_fn -> reads p_path is_path before_brace -> reads p_expr is_expr after_expr ->
  reads p_type is_type (before_punct ";"%char) -> reads p_pat is_pat before_arrow ->
  forall e e' g ts si s P ws fuel P', lr_env_ok e -> gen_env_ok g ->
  parser_text keyword is_vis is_path is_expr is_type is_pat ts si -> stands_for nix tix tval nval red si s -> names_differ nix tix tval nval si ->
  makes e' s P ws -> parser_use keyword p_vis p_path p_expr p_type p_pat nix tix tval nval red e g fuel ts = MOk P' ->
  forall fuel w, parse_full tix P' fuel w = parse_full tix P fuel w /\ parse_calls tix P' fuel w = parse_calls tix P fuel w /\ parse_errors tix P' fuel w = parse_errors tix P fuel w.
Proof. intros. eapply agrees; eauto. Qed.
Print Assumptions C94_parser.

(** what becomes of every text: a message when it is not in the notation; a panic when the function has arguments, when the rules use names that do not stand
    for anything or begin with [|], or when a symbol has no rules; otherwise a parser for the rules written in it *)
Theorem C94_parser_outcomes : forall keyword Vis Path Expr Typ Pat N T E (nix : N -> nat) (tix : T -> nat) p_vis p_path p_expr p_type p_pat
    (is_vis : list ttree -> Vis -> Prop) (is_path : list ttree -> Path -> Prop) (is_expr : list ttree -> Expr -> Prop)
    (is_type : list ttree -> Typ -> Prop) (is_pat : list ttree -> Pat -> Prop) (tval : Expr -> T) (nval : Expr -> N) (red : Pat -> Expr -> reducer N T E),
  reads p_vis is_vis before_fn -> reads p_path is_path before_brace -> reads p_expr is_expr after_expr ->
  reads p_type is_type (before_punct ";"%char) -> reads p_pat is_pat before_arrow ->
  forall e g ts, lr_env_ok e -> gen_env_ok g ->
  let use := parser_use keyword p_vis p_path p_expr p_type p_pat nix tix tval nval red e g in
  let text := parser_text keyword is_vis is_path is_expr is_type is_pat ts in
  (forall fuel, use fuel ts = MErr <-> (forall si, ~ text si) /\ ~ with_arguments keyword is_vis ts) /\
  (forall fuel, with_arguments keyword is_vis ts -> use fuel ts = MPanic) /\
  (forall si, text si -> exists F,
    (exists P', (forall fuel, F <= fuel -> use fuel ts = MOk P') /\ exists s, stands_for nix tix tval nval red si s /\ LrModel.p_rules (pr_tab P') = gram s /\ pr_gens P' = gens s) \/
    ((forall fuel, F <= fuel -> use fuel ts = MPanic) /\ ((forall s, ~ stands_for nix tix tval nval red si s) \/ exists n, without_rules si n))).
Proof.
  intros keyword Vis Path Expr Typ Pat N T E nix tix p_vis p_path p_expr p_type p_pat is_vis is_path is_expr is_type is_pat tval nval red R1 R2 R3 R4 R5 e g ts He Hg use text.
  pose proof (C54_parser_notation keyword _ _ _ _ _ p_vis p_path p_expr p_type p_pat is_vis is_path is_expr is_type is_pat R1 R2 R3 R4 R5 ts) as HN.
  destruct (C55_reading keyword _ _ _ _ _ p_vis p_path p_expr p_type p_pat is_vis is_path is_expr is_type is_pat R1 R2 R3 R4 R5 ts) as [[Hf Hp] _].
  assert (Hw : forall si r, read_parser keyword p_vis p_path p_expr p_type p_pat ts = POk si r -> r = []).
  { intros si r H. unfold read_parser, whole in H. destruct (p_parser_input _ _ _ _ _ _ ts) as [a [|t rest]| | |]; try discriminate. injection H as _ <-. reflexivity. }
  split; [|split].
  - intros fuel. unfold use, parser_use. destruct (read_parser keyword p_vis p_path p_expr p_type p_pat ts) as [si r| | |] eqn:Er.
    + split; [|intros [F _]; exfalso; apply (F si), HN; rewrite (Hw _ _ eq_refl); reflexivity]. match goal with |- match ?x with _ => _ end = _ -> _ => destruct x; discriminate end.
    + split; [|reflexivity]. intros _. split; [intros si F; apply HN in F; discriminate|]. intros F. apply Hp in F. discriminate.
    + split; [discriminate|]. intros [_ F]. exfalso. apply F, Hp. reflexivity.
    + contradiction.
  - intros fuel H. apply Hp in H. unfold use, parser_use. rewrite H. reflexivity.
  - intros si Hs. eapply outcomes; eauto.
Qed.
Print Assumptions C94_parser_outcomes.

(** for a text whose start symbol has a rule: code exactly when the builder makes a parser *)
Theorem C94_parser_builds : forall keyword Vis Path Expr Typ Pat N T E (nix : N -> nat) (tix : T -> nat) p_vis p_path p_expr p_type p_pat
    (is_vis : list ttree -> Vis -> Prop) (is_path : list ttree -> Path -> Prop) (is_expr : list ttree -> Expr -> Prop)
    (is_type : list ttree -> Typ -> Prop) (is_pat : list ttree -> Pat -> Prop) (tval : Expr -> T) (nval : Expr -> N) (red : Pat -> Expr -> reducer N T E),
  reads p_vis is_vis before_fn -> reads p_path is_path before_brace -> reads p_expr is_expr after_expr ->
  reads p_type is_type (before_punct ";"%char) -> reads p_pat is_pat before_arrow ->
  forall e e' g ts si s, lr_env_ok e -> lr_env_ok e' -> gen_env_ok g ->
  parser_text keyword is_vis is_path is_expr is_type is_pat ts si -> stands_for nix tix tval nval red si s -> names_differ nix tix tval nval si -> (exists r, In r (gram s) /\ r_lhs r = sx_start s) ->
  ((exists fuel P', parser_use keyword p_vis p_path p_expr p_type p_pat nix tix tval nval red e g fuel ts = MOk P') <-> exists P ws, makes e' s P ws).
Proof.
  intros keyword Vis Path Expr Typ Pat N T E nix tix p_vis p_path p_expr p_type p_pat is_vis is_path is_expr is_type is_pat tval nval red R1 R2 R3 R4 R5 e e' g ts si s He He' Hg Ht Hs Hd Hdef.
  pose proof (proj1 (stands_written nix tix tval nval red si s) Hs) as Hw. destruct (differ_distinct nix tix tval nval red si Hd) as [D1 D2].
  pose proof (C38_macro_builds _ _ _ nix tix e e' (input_of tval nval red si) s He He' D1 D2 Hw Hdef) as HB.
  assert (U : forall fuel, parser_use keyword p_vis p_path p_expr p_type p_pat nix tix tval nval red e g fuel ts = _) by (intros fuel; apply (use_text keyword nix tix p_vis p_path p_expr p_type p_pat is_vis is_path is_expr is_type is_pat tval nval red R1 R2 R3 R4 R5 e g fuel ts si Ht)).
  rewrite <- HB. split.
  - intros (fuel & P' & H). rewrite U in H. exists fuel. destruct (expand e fuel (input_of tval nval red si)) as [kp| |]; try discriminate. eauto.
  - intros H. pose proof (proj1 HB H) as (P & ws & Hmk). destruct H as (fuel & [keys p] & H). exists fuel. destruct (C38_macro_agrees _ _ _ nix tix e e' g _ s P ws fuel keys p He Hg D1 D2 Hw Hmk H) as (P' & HP & _).
    exists P'. rewrite U, H. cbn [bind fst snd]. rewrite HP. reflexivity.
Qed.
Print Assumptions C94_parser_builds.

(** ** The text of [tokenizer!] *)
Theorem C94_tokenizer : forall keyword Vis Expr Typ E T RErr (parse : string -> hir + RErr) p_vis p_expr p_type
    (is_vis : list ttree -> Vis -> Prop) (is_expr : list ttree -> Expr -> Prop) (is_type : list ttree -> Typ -> Prop) (maker : Expr -> list N -> list T -> E),
  reads p_vis is_vis before_fn -> reads p_expr is_expr after_expr -> reads p_type is_type (before_punct ";"%char) -> parses_wf parse ->
  forall env1 env2 order ts, env_ok env1 -> env_honest env1 -> env_ok env2 -> env_honest env2 -> (forall l, Permutation (order l) l) ->
  let use := tokenizer_use keyword p_vis p_expr p_type parse maker env1 order in
  (forall fuel, use fuel ts = MErr <-> (forall ti, ~ tokenizer_text keyword is_vis is_expr is_type ts ti) /\ ~ with_arguments keyword is_vis ts) /\
  (forall fuel, with_arguments keyword is_vis ts -> use fuel ts = MPanic) /\
  (forall ti, tokenizer_text keyword is_vis is_expr is_type ts ti ->
    let patterns := map (fun re => (fst re, maker (snd re))) (ti_rules ti) in
    (forall fuel, use fuel ts = MPanic <-> exists e, TokModel.build string RErr parse env1 fuel patterns = BErr e) /\
    (forall fuel fuel2 t1 t2 ws2, use fuel ts = MOk t1 -> TokModel.build string RErr parse env2 fuel2 patterns = BOk (t2, ws2) ->
      (forall f s, next t1 f s = next t2 f s) /\ (forall fuel f s, tok_collect fuel t1 f s = tok_collect fuel t2 f s))).
Proof.
  intros keyword Vis Expr Typ E T RErr parse p_vis p_expr p_type is_vis is_expr is_type maker R1 R3 R4 W env1 env2 order ts O1 H1 O2 H2 Ho use.
  pose proof (C54_tokenizer_notation keyword _ _ _ p_vis p_expr p_type is_vis is_expr is_type R1 R3 R4 ts) as HN.
  assert (Hf : read_tokenizer keyword p_vis p_expr p_type ts <> PFuel /\ (read_tokenizer keyword p_vis p_expr p_type ts = PPanic <-> with_arguments keyword is_vis ts)).
  { assert (Rn : forall follow, reads (fun _ => None) (fun (_ : list ttree) (_ : unit) => False) follow) by (intros follow; split; [discriminate|contradiction]).
    exact (proj2 (C55_reading keyword Vis unit Expr Typ unit p_vis (fun _ => None) p_expr p_type (fun _ => None) is_vis (fun _ _ => False) is_expr is_type (fun _ _ => False) R1 (Rn _) R3 R4 (Rn _) ts)). }
  destruct Hf as [Hf Hp].
  assert (Hw : forall ti r, read_tokenizer keyword p_vis p_expr p_type ts = POk ti r -> r = []).
  { intros si r H. unfold read_tokenizer, whole in H. destruct (p_tokenizer_input _ _ _ _ ts) as [a [|t rest]| | |]; try discriminate. injection H as _ <-. reflexivity. }
  split; [|split].
  - intros fuel. unfold use, tokenizer_use. destruct (read_tokenizer keyword p_vis p_expr p_type ts) as [ti r| | |] eqn:Er.
    + split; [|intros [F _]; exfalso; apply (F ti), HN; rewrite (Hw _ _ eq_refl); reflexivity]. match goal with |- match ?x with _ => _ end = _ -> _ => destruct x; discriminate end.
    + split; [|reflexivity]. intros _. split; [intros si F; apply HN in F; discriminate|]. intros F. apply Hp in F. discriminate.
    + split; [discriminate|]. intros [_ F]. exfalso. apply F, Hp. reflexivity.
    + contradiction.
  - intros fuel H. apply Hp in H. unfold use, tokenizer_use. rewrite H. reflexivity.
  - intros ti Ht patterns. apply HN in Ht. split.
    + intros fuel. unfold use, tokenizer_use. rewrite Ht. fold patterns. pose proof (C16_macro_fails_with_build E T string RErr parse env1 order fuel patterns O1 W) as H.
      assert (Hb : forall e, tokenizer_macro string RErr parse env1 order fuel patterns <> BErr e).
      { intros e F. unfold tokenizer_macro in F. destruct (split patterns) as [a b]. destruct (TokModel.build string RErr parse env1 fuel (map (fun r => (r, unit_maker)) a)) as [[? ?]|?| |]; discriminate. }
      rewrite <- H. destruct (tokenizer_macro string RErr parse env1 order fuel patterns) as [t|e| |]; split; try discriminate; auto. intros _. destruct (Hb e eq_refl).
    + intros fuel fuel2 t1 t2 ws2 Hu Hb. unfold use, tokenizer_use in Hu. rewrite Ht in Hu. fold patterns in Hu.
      destruct (tokenizer_macro string RErr parse env1 order fuel patterns) as [t|e| |] eqn:Em; try discriminate. injection Hu as ->.
      exact (C16_macro_agrees E T string RErr parse env1 env2 order fuel fuel2 patterns t1 t2 ws2 W O1 H1 O2 H2 Ho Em Hb).
Qed.
Print Assumptions C94_tokenizer.

(** ** Examples: the texts of C54 *)
Lemma calc_read_text : exists si, parser_text rust_keyword (is_until stop_fn) (is_until stop_brace) (is_until stop_expr) (is_until (stop_punct ";"%char)) (is_until (stop_punct "="%char)) calc_text si /\
  input_of PropSyn.tval PropSyn.nval PropSyn.red si = mi_expr.
Proof.
  destruct C54_hypotheses as (R1 & R2 & R3 & R4 & R5). eexists. split; [|shelve].
  apply (C54_parser_notation rust_keyword _ _ _ _ _ _ _ _ _ _ _ _ _ _ _ R1 R2 R3 R4 R5). vm_compute. reflexivity.
  Unshelve. reflexivity.
Qed.
Lemma calc_differ (si : syn_input (list ttree) (list ttree) (list ttree) (list ttree) (list ttree)) : input_of PropSyn.tval PropSyn.nval PropSyn.red si = mi_expr -> names_differ nix0 tkix PropSyn.tval PropSyn.nval si.
Proof.
  intros Hi. destruct mi_expr_distinct as [D1 D2]. rewrite <- Hi in D1, D2. cbn [mi_tokens mi_symbols input_of] in D1, D2. split; intros k v k' v' H H' E0; [apply (D1 k (PropSyn.tval v) k' (PropSyn.tval v'))|apply (D2 k (PropSyn.nval v) k' (PropSyn.nval v'))]; auto;
      apply in_map_iff; [exists (k, v)|exists (k', v')|exists (k, v)|exists (k', v')]; auto.
Qed.
Lemma calc_stands (si : syn_input (list ttree) (list ttree) (list ttree) (list ttree) (list ttree)) : input_of PropSyn.tval PropSyn.nval PropSyn.red si = mi_expr -> stands_for nix0 tkix PropSyn.tval PropSyn.nval PropSyn.red si expr.
Proof. intros Hi. apply stands_written. rewrite Hi. apply mi_expr_written. Qed.
Example C94_example : exists si P' P ws,
  parser_text rust_keyword (is_until stop_fn) (is_until stop_brace) (is_until stop_expr) (is_until (stop_punct ";"%char)) (is_until (stop_punct "="%char)) calc_text si /\
  stands_for nix0 tkix PropSyn.tval PropSyn.nval PropSyn.red si expr /\ names_differ nix0 tkix PropSyn.tval PropSyn.nval si /\
  lr_env_ok env1 /\ gen_env_ok genv1 /\ (exists r, In r (gram expr) /\ r_lhs r = sx_start expr) /\ makes env0 expr P ws /\ 
  parser_use rust_keyword (p_until stop_fn) (p_until stop_brace) (p_until stop_expr) (p_until (stop_punct ";"%char)) (p_until (stop_punct "="%char)) nix0 tkix PropSyn.tval PropSyn.nval PropSyn.red env1 genv1 100 calc_text = MOk P' /\ parse_full tkix P' 100 w_expr = Ok (ROk 6, []).
Proof.
  destruct calc_read_text as (si & Ht & Hi). destruct C54_hypotheses as (R1 & R2 & R3 & R4 & R5). exists si, P_macro, P_expr, [].
  split; [exact Ht|]. split; [apply calc_stands; exact Hi|]. split; [apply calc_differ; exact Hi|].
  split; [apply env1_ok|]. split; [apply genv1_ok|]. split; [apply C38_start_has_rule|]. split; [apply expr_makes|]. destruct C38_run as ((keys & p & H1 & H2) & H3 & _). split; [|exact H3].
  exact (use_ok rust_keyword nix0 tkix _ _ _ _ _ _ _ _ _ _ PropSyn.tval PropSyn.nval PropSyn.red R1 R2 R3 R4 R5 env1 genv1 100 calc_text si mi_expr keys p P_macro Ht Hi H1 H2).
Qed.
(** the text of a tokenizer: numbers and +, with a regex parser that knows the two patterns; the maker of numbers gives the number of characters *)
Definition toks_parse (p : string) : hir + unit := if String.eqb p "[0-9]+" then inl h_num else if String.eqb p "\+" then inl (HLitU 43) else inr tt.
Definition toks_maker (e : list ttree) : list N -> list N -> nat * nat := fun s _ => match e with [TIdent "number"] => (0, List.length s) | _ => (1, 0) end.
Example C94_tokenizer_example : exists ti t,
  tokenizer_text rust_keyword (is_until stop_fn) (is_until stop_expr) (is_until (stop_punct ";"%char)) toks_text ti /\ parses_wf toks_parse /\ env_ok rev_env /\ env_honest rev_env /\
  tokenizer_use rust_keyword (p_until stop_fn) (p_until stop_expr) (p_until (stop_punct ";"%char)) toks_parse toks_maker rev_env (fun l => rev l) 100 toks_text = MOk t /\
  tok_collect 10 t (fun c => c) (tokenize_with [49; 50; 43; 51]%N) = Ok [(0, 2); (1, 0); (0, 1)].
Proof.
  destruct C54_hypotheses as (R1 & _ & R3 & R4 & _). eexists _, _. split; [apply (C54_tokenizer_notation rust_keyword _ _ _ _ _ _ _ _ _ R1 R3 R4); vm_compute; reflexivity|].
  split; [|split; [apply rev_ok|split; [apply rev_ok|split; [vm_compute; reflexivity|vm_compute; reflexivity]]]].
  intros p h H. unfold toks_parse in H. destruct (String.eqb p "[0-9]+"); [injection H as <-|destruct (String.eqb p "\+"); [injection H as <-|discriminate]].
  - pose proof demo_wf as W. unfold demo_hirs in W. rewrite !Forall_cons_iff in W. tauto.
  - cbn. unfold max_char. lia.
Qed.
