(** * What is written in the macros means (specification)

    [stands_for si s]: the parts [si] of a text of [parser!] are the rules of the syntax [s], written with [Rule::new] and the
    values that the names of tokens and symbols stand for. *)
From Coq Require Import List NArith String.
From Verif Require Import Lib Grammar LrModel ParseModel ParseSpec GenModel GenSpec SynModel.
Import ListNotations.

Section Meaning.
  Context {Vis Path Expr Typ Pat N T E : Type} (nix : N -> nat) (tix : T -> nat).
  Variables (tval : Expr -> T) (nval : Expr -> N) (red : Pat -> Expr -> reducer N T E).
  (** the name in front of [::=] in the rule itself or, for [|], in the nearest rule above that has one *)
  Inductive name_in_front : list (syn_rule Expr Pat) -> string -> Prop :=
  | front_own : forall above r n, sr_key r = Named n -> name_in_front (above ++ [r]) n
  | front_above : forall above r n, sr_key r = Follow -> name_in_front above n -> name_in_front (above ++ [r]) n.
  (** the symbols of a right-hand side *)
  Definition item_stands_for (si : syn_input Vis Path Expr Typ Pat) (x : bnf_symbol) (y : symbol N T unit) : Prop :=
    match x with
    | BTerminal k => exists v, means (si_tokens si) k v /\ y = Terminal (tval v)
    | BNonTerminal n => exists v, means (si_symbols si) n v /\ y = NonTerminal (nval v)
    | BError => exists u, y = ErrorSym u
    end.
  (** rules [done] are read, [todo] are to be read and are the rules [l] *)
  Inductive rules_stand_for (si : syn_input Vis Path Expr Typ Pat) : list (syn_rule Expr Pat) -> list (syn_rule Expr Pat) -> list (crule N T E) -> Prop :=
  | rsf_nil : forall done, rules_stand_for si done [] []
  | rsf_cons : forall done r todo n v items l, name_in_front (done ++ [r]) n -> means (si_symbols si) n v -> Forall2 (item_stands_for si) (sr_rule r) items ->
      rules_stand_for si (done ++ [r]) todo l ->
      rules_stand_for si done (r :: todo) (rule_new nix tix (nval v) items (red (sr_pat r) (sr_gen r)) :: l).
  Definition stands_for (si : syn_input Vis Path Expr Typ Pat) (s : syntax N T E) : Prop :=
    (exists v, means (si_symbols si) (si_start si) v /\ sx_start s = nix (nval v)) /\ rules_stand_for si [] (si_rules si) (sx_rules s).
  (** different names stand for different variants *)
  Definition names_differ (si : syn_input Vis Path Expr Typ Pat) : Prop :=
    (forall k v k' v', In (k, v) (si_tokens si) -> In (k', v') (si_tokens si) -> tix (tval v) = tix (tval v') -> k = k') /\
    (forall k v k' v', In (k, v) (si_symbols si) -> In (k', v') (si_symbols si) -> nix (nval v) = nix (nval v') -> k = k').
  (** [n] is the start symbol or occurs in a rule, but no rule is written [n ::= ..] *)
  Definition without_rules (si : syn_input Vis Path Expr Typ Pat) (n : string) : Prop :=
    (si_start si = n \/ exists r, In r (si_rules si) /\ In (BNonTerminal n) (sr_rule r)) /\ forall r, In r (si_rules si) -> sr_key r <> Named n.
End Meaning.
