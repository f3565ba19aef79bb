(** * Properties C54, C55: the notation of the macros [parser!] and [tokenizer!] *)
From Coq Require Import List Arith Lia Bool String Ascii.
From Verif Require Import Lib Grammar LrModel ParseModel GenModel SynModel SynSpec SynProofs ParseExamples PropGen.
Import ListNotations.
Local Notation length := List.length.

(** ** C54: the macros read exactly what is written in their notation, and mean by it what is written *)
Theorem C54_parser_notation : forall keyword Vis Path Expr Typ Pat p_vis p_path p_expr p_type p_pat
    (is_vis : list ttree -> Vis -> Prop) (is_path : list ttree -> Path -> Prop) (is_expr : list ttree -> Expr -> Prop)
    (is_type : list ttree -> Typ -> Prop) (is_pat : list ttree -> Pat -> Prop),
  reads p_vis is_vis before_fn -> reads p_path is_path before_brace -> reads p_expr is_expr after_expr ->
  reads p_type is_type (before_punct ";") -> reads p_pat is_pat before_arrow ->
  forall ts si, read_parser keyword p_vis p_path p_expr p_type p_pat ts = POk si [] <-> parser_text keyword is_vis is_path is_expr is_type is_pat ts si.
Proof. intros. apply read_parser_iff; assumption. Qed.
Print Assumptions C54_parser_notation.

Theorem C54_tokenizer_notation : forall keyword Vis Expr Typ p_vis p_expr p_type
    (is_vis : list ttree -> Vis -> Prop) (is_expr : list ttree -> Expr -> Prop) (is_type : list ttree -> Typ -> Prop),
  reads p_vis is_vis before_fn -> reads p_expr is_expr after_expr -> reads p_type is_type (before_punct ";") ->
  forall ts ti, read_tokenizer keyword p_vis p_expr p_type ts = POk ti [] <-> tokenizer_text keyword is_vis is_expr is_type ts ti.
Proof. intros. apply read_tokenizer_iff; assumption. Qed.
Print Assumptions C54_tokenizer_notation.

(** the notation is not ambiguous: no input means two things *)
Theorem C54_one_meaning : forall keyword Vis Path Expr Typ Pat p_vis p_path p_expr p_type p_pat
    (is_vis : list ttree -> Vis -> Prop) (is_path : list ttree -> Path -> Prop) (is_expr : list ttree -> Expr -> Prop)
    (is_type : list ttree -> Typ -> Prop) (is_pat : list ttree -> Pat -> Prop),
  reads p_vis is_vis before_fn -> reads p_path is_path before_brace -> reads p_expr is_expr after_expr ->
  reads p_type is_type (before_punct ";") -> reads p_pat is_pat before_arrow ->
  (forall ts a b, parser_text keyword is_vis is_path is_expr is_type is_pat ts a -> parser_text keyword is_vis is_path is_expr is_type is_pat ts b -> a = b) /\
  (forall ts a b, tokenizer_text keyword is_vis is_expr is_type ts a -> tokenizer_text keyword is_vis is_expr is_type ts b -> a = b).
Proof.
  intros keyword Vis Path Expr Typ Pat p_vis p_path p_expr p_type p_pat is_vis is_path is_expr is_type is_pat Hv Hp He Ht Hq. split; intros ts a b Ha Hb.
  - apply (C54_parser_notation keyword _ _ _ _ _ p_vis p_path p_expr p_type p_pat) in Ha; try assumption.
    apply (C54_parser_notation keyword _ _ _ _ _ p_vis p_path p_expr p_type p_pat) in Hb; try assumption. congruence.
  - apply (C54_tokenizer_notation keyword _ _ _ p_vis p_expr p_type) in Ha; try assumption.
    apply (C54_tokenizer_notation keyword _ _ _ p_vis p_expr p_type) in Hb; try assumption. congruence.
Qed.
Print Assumptions C54_one_meaning.

(** ** C55: reading ends; it panics exactly when the function is written with arguments *)
Theorem C55_reading : forall keyword Vis Path Expr Typ Pat p_vis p_path p_expr p_type p_pat
    (is_vis : list ttree -> Vis -> Prop) (is_path : list ttree -> Path -> Prop) (is_expr : list ttree -> Expr -> Prop)
    (is_type : list ttree -> Typ -> Prop) (is_pat : list ttree -> Pat -> Prop),
  reads p_vis is_vis before_fn -> reads p_path is_path before_brace -> reads p_expr is_expr after_expr ->
  reads p_type is_type (before_punct ";") -> reads p_pat is_pat before_arrow ->
  forall ts,
    (read_parser keyword p_vis p_path p_expr p_type p_pat ts <> PFuel /\
     (read_parser keyword p_vis p_path p_expr p_type p_pat ts = PPanic <-> with_arguments keyword is_vis ts)) /\
    (read_tokenizer keyword p_vis p_expr p_type ts <> PFuel /\ (read_tokenizer keyword p_vis p_expr p_type ts = PPanic <-> with_arguments keyword is_vis ts)).
Proof.
  intros keyword Vis Path Expr Typ Pat p_vis p_path p_expr p_type p_pat is_vis is_path is_expr is_type is_pat Hv Hp He Ht Hq ts. split.
  - eapply read_parser_outcome; eassumption.
  - eapply read_tokenizer_outcome; eassumption.
Qed.
Print Assumptions C55_reading.

(** ** Example: pieces of Rust as the tokens up to the one that has to follow them *)
Fixpoint until (stop : ttree -> bool) (ts : list ttree) : list ttree * list ttree :=
  match ts with [] => ([], []) | t :: r => if stop t then ([], ts) else (t :: fst (until stop r), snd (until stop r)) end.
Definition p_until (stop : ttree -> bool) (ts : list ttree) : option (list ttree * list ttree) := Some (until stop ts).
Definition is_until (stop : ttree -> bool) (us a : list ttree) : Prop := a = us /\ Forall (fun t => stop t = false) us.
Lemma reads_until : forall stop (follow : list ttree -> Prop), (forall r, follow r -> r = [] \/ exists t r', r = t :: r' /\ stop t = true) ->
  reads (p_until stop) (is_until stop) follow.
Proof.
  intros stop follow F. split.
  - intros ts a r E. injection E as E1. assert (a = fst (until stop ts)) as -> by (rewrite E1; reflexivity). assert (r = snd (until stop ts)) as -> by (rewrite E1; reflexivity). clear E1.
    exists (fst (until stop ts)). assert (ts = fst (until stop ts) ++ snd (until stop ts) /\ Forall (fun t => stop t = false) (fst (until stop ts))) as (H1 & H2).
    { induction ts as [|t ts (I1 & I2)]; cbn; [ auto | ]. destruct (stop t) eqn:S; cbn; [ auto | ]. split; [ congruence | constructor; auto ]. }
    split; [ exact H1 | split; [ reflexivity | exact H2 ] ].
  - intros us a r (-> & H) Fr. unfold p_until. f_equal. induction H as [|t us H _ IH]; cbn.
    + destruct (F r Fr) as [->|(t & r' & -> & S)]; cbn; [ reflexivity | rewrite S; reflexivity ].
    + rewrite H, IH. reflexivity.
Qed.
Definition stop_punct (c : ascii) (t : ttree) : bool := match t with TPunct c' _ => Ascii.eqb c c' | _ => false end.
Definition stop_expr (t : ttree) : bool := stop_punct "," t || stop_punct ";" t.
Definition stop_brace (t : ttree) : bool := match t with TGroup Brace _ => true | _ => false end.
Definition stop_fn (t : ttree) : bool := match t with TIdent s => String.eqb s "fn" | _ => false end.
Example C54_hypotheses :
  reads (p_until stop_fn) (is_until stop_fn) before_fn /\ reads (p_until stop_brace) (is_until stop_brace) before_brace /\
  reads (p_until stop_expr) (is_until stop_expr) after_expr /\ reads (p_until (stop_punct ";")) (is_until (stop_punct ";")) (before_punct ";") /\
  reads (p_until (stop_punct "=")) (is_until (stop_punct "=")) before_arrow.
Proof.
  split; [ | split; [ | split; [ | split ] ] ]; apply reads_until; intros r H.
  - destruct H as (r' & ->). right. eexists _, _. split; reflexivity.
  - destruct H as (us & r' & ->). right. eexists _, _. split; reflexivity.
  - destruct H as [->|[(j & r' & ->)|(j & r' & ->)]]; [ left; reflexivity | | ]; right; eexists _, _; split; reflexivity.
  - destruct H as (j & r' & ->). right. eexists _, _. split; reflexivity.
  - destruct H as (j & r' & ->). right. eexists _, _. split; reflexivity.
Qed.

(** [pub fn calc() -> LR1Parser { token Tk { "(" = L, id = Id(0), ")" = R, "+" = Plus } symbol Nt { T = T, E = E, } errortype ();
      start E; <E> ::= <E> "+" <T> : [e, _, t] => sum(e, t); | <T> : [t] => one; <T> ::= "(" <E> ")" : _ => paren; | [id] : _ => id; }] *)
Definition pn (s : string) : list ttree :=
  match s with String a (String b EmptyString) => [TPunct a true; TPunct b false] | String a (String b (String c EmptyString)) => [TPunct a true; TPunct b true; TPunct c false]
             | String a EmptyString => [TPunct a false] | _ => [] end.
Definition id (s : string) := [TIdent s].
Definition nt (s : string) : list ttree := pn "<" ++ id s ++ pn ">".
Definition calc_text : list ttree :=
  (id "pub" ++ id "fn" ++ id "calc" ++ [TGroup Paren []] ++ pn "->" ++ id "LR1Parser" ++ [TGroup Brace (
    id "token" ++ id "Tk" ++ [TGroup Brace (TStr "(" :: pn "=" ++ id "L" ++ pn "," ++ id "id" ++ pn "=" ++ id "Id" ++ [TGroup Paren [TLit "0"]] ++ pn "," ++
      TStr ")" :: pn "=" ++ id "R" ++ pn "," ++ TStr "+" :: pn "=" ++ id "Plus")] ++
    id "symbol" ++ id "Nt" ++ [TGroup Brace (id "T" ++ pn "=" ++ id "T" ++ pn "," ++ id "E" ++ pn "=" ++ id "E" ++ pn ",")] ++
    id "errortype" ++ [TGroup Paren []] ++ pn ";" ++ id "start" ++ id "E" ++ pn ";" ++
    nt "E" ++ pn "::=" ++ nt "E" ++ [TStr "+"] ++ nt "T" ++ pn ":" ++ [TGroup Bracket (id "e" ++ pn "," ++ id "_" ++ pn "," ++ id "t")] ++ pn "=>" ++
      id "sum" ++ [TGroup Paren (id "e" ++ pn "," ++ id "t")] ++ pn ";" ++
    pn "|" ++ nt "T" ++ pn ":" ++ [TGroup Bracket (id "t")] ++ pn "=>" ++ id "one" ++ pn ";" ++
    nt "T" ++ pn "::=" ++ [TStr "("] ++ nt "E" ++ [TStr ")"] ++ pn ":" ++ id "_" ++ pn "=>" ++ id "paren" ++ pn ";" ++
    pn "|" ++ [TGroup Bracket (id "id")] ++ pn ":" ++ id "_" ++ pn "=>" ++ id "id" ++ pn ";")])%list.
Definition rust_keyword (s : string) : bool := existsb (String.eqb s) ["_"; "fn"; "pub"; "let"; "match"; "as"; "type"]%string.
Definition tval (e : list ttree) : tk :=
  match e with TIdent s :: _ => if String.eqb s "L" then (kL, 0) else if String.eqb s "Id" then (kId, 0) else if String.eqb s "R" then (kR, 0) else (kPlus, 0) | _ => (kPlus, 0) end.
Definition nval (e : list ttree) : nat := match e with TIdent s :: _ => if String.eqb s "E" then nE else nT | _ => nT end.
Definition red (_ e : list ttree) : reducer nat tk nat :=
  match e with TIdent s :: _ => if String.eqb s "sum" then r_sum else if String.eqb s "one" then r_one else if String.eqb s "paren" then r_paren else r_id | _ => r_id end.
Definition calc_read := read_parser rust_keyword (p_until stop_fn) (p_until stop_brace) (p_until stop_expr) (p_until (stop_punct ";")) (p_until (stop_punct "=")).
Example C54_calculator : exists si, calc_read calc_text = POk si [] /\ input_of tval nval red si = mi_expr /\ si_name si = "calc"%string /\ si_vis si = id "pub".
Proof. eexists. split; [ vm_compute; reflexivity | ]. split; [ reflexivity | split; reflexivity ]. Qed.
Definition toks_text : list ttree :=
  (id "fn" ++ id "toks" ++ [TGroup Paren []] ++ pn "->" ++ id "DFATokenizer" ++ [TGroup Brace (
    id "character" ++ id "char" ++ pn ";" ++ id "token" ++ id "Tk" ++ pn ";" ++
    TStr "[0-9]+" :: pn ":" ++ id "number" ++ pn ";" ++ TStr "\+" :: pn ":" ++ id "make" ++ pn "::" ++ id "plus" ++ pn ";")])%list.
Definition toks_read := read_tokenizer rust_keyword (p_until stop_fn) (p_until stop_expr) (p_until (stop_punct ";")).
Example C54_tokens : toks_read toks_text = POk (mk_ti [] "toks" (id "char") (id "Tk") [("[0-9]+", id "number"); ("\+", [TIdent "make"; TPunct ":" true; TPunct ":" false; TIdent "plus"])]%string) [].
Proof. reflexivity. Qed.
(** an argument, and a rule without its [;] *)
Example C55_arguments : calc_read [TIdent "fn"; TIdent "calc"; TGroup Paren [TIdent "x"]] = PPanic /\ with_arguments rust_keyword (is_until stop_fn) [TIdent "fn"; TIdent "calc"; TGroup Paren [TIdent "x"]].
Proof.
  split; [ reflexivity | ]. exists [], [], "calc"%string, [TIdent "x"], []. split; [ split; [ reflexivity | constructor ] | ]. split; [ reflexivity | split; [ discriminate | reflexivity ] ].
Qed.
Example C54_missing : toks_read (removelast toks_text ++ [TGroup Brace (id "character" ++ id "char" ++ pn ";" ++ id "token" ++ id "Tk" ++ pn ";" ++ TStr "a" :: pn ":" ++ id "x" ++ pn ";" ++ pn ";")])%list = PErr.
Proof. reflexivity. Qed.
