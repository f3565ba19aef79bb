(** * The calculator's tokenizer gives the tokens of the specification *)
From Coq Require Import List NArith Lia String.
From Verif Require Import Lib Hir NfaModel NfaPath NfaSem NfaProofs TokNfa DfaModel MinModel TokModel TokSpec TokProofs TokTop TokMore MinSafe PropBuild ExModel ExSpec ExLex.
Import ListNotations.
Local Open Scope list_scope.
Local Notation length := List.length.
Local Notation concat := List.concat.

Lemma mantissa_ne w : mantissa w -> w <> [].
Proof. intros [[H _]|(a & b & -> & _)]; auto. destruct a; discriminate. Qed.
Lemma number_ne w : number_text w -> w <> [].
Proof. intros (m & x & -> & Hm & _) H. apply app_eq_nil in H as [H _]. exact (mantissa_ne _ Hm H). Qed.
Lemma lexeme_ne p w : lexeme p w -> w <> [].
Proof.
  destruct p as [|[|[|[|[|[|[|[|[|p]]]]]]]]]; cbn [lexeme]; [apply number_ne|..]; try (intros ->; discriminate); [|contradiction].
  intros (c & -> & _). discriminate.
Qed.

Lemma map_snd_some {A B} (o : option (A * B)) m : option_map snd o = Some m -> exists p, o = Some (p, m).
Proof. destruct o as [[p m']|]; intros H; inversion H; subst. eauto. Qed.

Section S.
  Context {F PErr : Type} (fo : floats F).
  Variable parse : String.string -> hir + PErr.
  Hypothesis Hwf : parses_wf parse.
  Hypothesis Hparse : parsed parse (calc_patterns fo) calc_hirs.

  Lemma calc_build : exists K, forall env fuel, env_ok env -> K <= fuel -> exists t ws, build_tokenizer fo parse env fuel = BOk (t, ws).
  Proof.
    destruct (C08_rejects_exactly _ N _ _ parse (calc_patterns fo) Hwf) as [(i & x & e & H1 & H2 & _)|(hs & H1 & [(i & h & e & H2 & H3 & _)|(_ & H2)])].
    - exfalso. assert (Hn : forall (l : list (String.string * maker (F := F))) hs, parsed parse l hs -> forall i x, nth_error l i = Some x -> exists h, parse (fst x) = inl h).
      { clear. induction 1 as [|y h l hs Hy Hl IH]; intros [|i] x Hx; try discriminate; simpl in Hx; [injection Hx as <-; eauto|eauto]. }
      destruct (Hn _ _ Hparse _ _ H1) as [h Hh]. exact (eq_ind (inl h) (fun r => match r with inl _ => True | inr _ => False end) I _ (eq_trans (eq_sym Hh) H2)).
    - exfalso. rewrite (parsed_fun parse _ _ _ H1 Hparse) in H2. pose proof hirs_sup as Hs. rewrite Forall_forall in Hs. eapply Hs; [eapply nth_error_In; eauto|eauto].
    - exact H2.
  Qed.

  Context (env : build_env) (fuel : nat) (t : calc_tokenizer (F := F)) (ws : list end_conflict).
  Hypothesis He : env_ok env.
  Hypothesis Hb : build_tokenizer fo parse env fuel = BOk (t, ws).

  (** the hash seed does not matter for these patterns *)
  Lemma calc_strict : build_tokenizer fo parse (strict_env env) fuel = BOk (t, ws).
  Proof. rewrite <- Hb. apply (build_strict parse Hwf env fuel 1000 (calc_patterns fo) calc_hirs Hparse He). vm_compute. reflexivity. Qed.

  Lemma calc_accepts w p : tok_accepts t w p <-> first_of 9 lexeme w p.
  Proof.
    destruct (inv parse Hwf (strict_env env) fuel _ _ t ws (strict_env_ok _ He) Hparse calc_strict) as (_ & _ & B & _ & _).
    rewrite (bt_accept _ _ _ _ B (strict_env_honest env)). apply (first_of_ext 9). intros q u Hq. apply lang_ok. auto.
  Qed.

  Lemma calc_tokens input k : length input < k ->
    exists es lexemes, tok_collect k t (fun c => c) (tokenize_with input) = Ok es /\ munch (first_of 9 lexeme) (fun c => c) input lexemes /\
      Forall2 (fun e x => exists p m, nth_error (calc_patterns fo) (fst x) = Some (p, m) /\ e = m (snd x) (snd x)) es lexemes.
  Proof.
    intros Hk. destruct (inv parse Hwf env fuel _ _ t ws He Hparse Hb) as (_ & _ & B & _ & Ht).
    destruct (tok_collect_terminates t (fun c => c) Ht (tokenize_with input) k) as (es & toks & A1 & A2 & A3 & _); auto.
    { intros p Hq. apply calc_accepts in Hq as (_ & Hq & _). exact (lexeme_ne _ _ Hq eq_refl). }
    exists es, toks. split; auto. split; [eapply munch_ext; [|exact A2]; intros; apply calc_accepts|].
    clear - A3 B. induction A3 as [|e x l l' (m & Hm & Hx) Hl IH]; constructor; auto.
    rewrite (bt_makers _ _ _ _ B), nth_error_map in Hm. apply map_snd_some in Hm as [p Hm]. rewrite map_id in Hx. eauto.
  Qed.

  (** nothing of the line is left over *)
  Lemma calc_covers input lexemes : Forall (fun c => c <= max_char)%N input -> munch (first_of 9 lexeme) (fun c => c) input lexemes -> concat (map snd lexemes) = input.
  Proof.
    intros Hc Hm. destruct (munch_concat _ _ _ _ Hm) as (rest & E0 & Hn). destruct rest as [|c rest]; [rewrite app_nil_r in E0; auto|]. exfalso.
    assert (Hmax : (c <= max_char)%N). { rewrite Forall_forall in Hc. apply Hc. rewrite E0. apply in_or_app. simpl. auto. }
    assert (Hacc : exists j, j <= 8 /\ tok_accepts t [c] j).
    { apply (l07 parse Hwf (strict_env env) fuel _ _ t ws (strict_env_ok _ He) (strict_env_honest _) Hparse calc_strict). eexists. split; [reflexivity|].
      destruct (N.eq_dec c 10) as [->|Hne]; [right; left; reflexivity|left]. exists c. split; auto. apply in_two. unfold max_char in *. lia. }
    destruct Hacc as (j & _ & Hj). apply calc_accepts in Hj. eapply (Hn 1); [simpl; lia|]. exact Hj.
  Qed.
End S.

Section Flatten.
  Context {F : Type} (fo : floats F).
  Lemma munch_lexeme input lexemes : munch (first_of 9 lexeme) (fun c : N => c) input lexemes -> Forall (fun x => fst x < 9 /\ lexeme (fst x) (snd x)) lexemes.
  Proof.
    induction 1 as [|pe k p rest (A & (B & C & _) & _) Hm IH]; constructor; auto. cbn [fst snd]. rewrite map_id in C. auto.
  Qed.
  Lemma flatten_ok es lexemes : parses_numbers fo -> Forall (fun x => fst x < 9 /\ lexeme (fst x) (snd x)) lexemes ->
    Forall2 (fun e x => exists p m, nth_error (calc_patterns fo) (fst x) = Some (p, m) /\ e = m (snd x) (snd x)) es lexemes ->
    exists parts, Forall2 (token_of fo) lexemes parts /\ flatten es = Ok (concat parts).
  Proof.
    intros Hp Hl H. induction H as [|e [i w] es l (p & m & Hm & ->) H IH]; [exists []; split; auto; reflexivity|].
    inversion Hl as [|x l' [Hi Hx] Hl' E1]; subst. destruct (IH Hl') as (parts & H1 & H2). cbn [fst snd] in *.
    assert (G : exists part, token_of fo (i, w) part /\ m w w = Ok (match part with [x] => Some x | _ => None end) /\ (part = [] \/ exists x, part = [x])).
    { destruct i as [|[|[|[|[|[|[|[|[|i]]]]]]]]]; [..|lia]; injection Hm as <- <-; cbn [lexeme] in Hx.
      1:{ destruct (fparse fo w) as [n|] eqn:En; [|destruct (Hp w Hx En)]. exists [Number n]. split; [constructor; auto|]. split; [reflexivity|eauto]. }
      all: eexists; (split; [constructor|]); (split; [reflexivity|eauto]). }
    destruct G as (part & G1 & G2 & G3). exists (part :: parts). split; [constructor; auto|]. cbn [flatten]. rewrite G2. cbn [bind]. rewrite H2. cbn [bind concat].
    destruct G3 as [->|[x ->]]; reflexivity.
  Qed.
  Lemma token_of_det x p q : token_of fo x p -> token_of fo x q -> p = q.
  Proof. intros H1 H2. destruct H1; inversion H2; subst; auto. congruence. Qed.
  Lemma lexes_det line ts ts' : lexes fo line ts -> lexes fo line ts' -> ts = ts'.
  Proof.
    intros (l & p & H1 & H2 & ->) (l' & p' & H1' & H2' & ->). rewrite (C15_munch_deterministic _ _ _ _ _ _ _ H1' H1) in H2'. f_equal.
    clear - H2 H2'. revert p' H2'. induction H2 as [|x a l p Hx Hl IH]; intros p' H'; inversion H'; subst; auto. f_equal; [eapply token_of_det; eauto|auto].
  Qed.
End Flatten.
