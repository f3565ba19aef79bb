(** * The vocabulary of the theorems about the macro [parser!] (specification) *)
From Coq Require Import List Arith String.
From Verif Require Import Lib Grammar LrModel ParseModel ParseSpec GenModel.
Import ListNotations.

(** [k] is not listed *)
Definition unknown {K V} (items : list (K * V)) (k : K) : Prop := ~ In k (map fst items).
(** the value a name stands for: that of its last item *)
Definition means {K V} (items : list (K * V)) (k : K) (v : V) : Prop :=
  exists before after, items = before ++ (k, v) :: after /\ unknown after k.

Section Written.
  Context {N T E : Type} (nix : N -> nat) (tix : T -> nat).

  (** the [i]-th rule is one for the symbol named [n]: it is written [n ::= ..], or with [|] in an unbroken
      sequence of such rules below a rule written [n ::= ..] *)
  Definition rule_name (rules : list (bnf_rule N T E)) (i : nat) (n : string) : Prop :=
    exists j r, j <= i /\ nth_error rules j = Some r /\ bn_key r = Named n /\
      forall k r', j < k <= i -> nth_error rules k = Some r' -> bn_key r' = Follow.

  Definition sym_means (mi : minput N T E) (x : bnf_symbol) (y : symbol N T unit) : Prop :=
    match x, y with
    | BTerminal k, Terminal t => means (mi_tokens mi) k t
    | BNonTerminal n, NonTerminal v => means (mi_symbols mi) n v
    | BError, ErrorSym _ => True
    | _, _ => False
    end.

  (** [s] is the syntax written with the real values: rule by rule with [Rule::new], in order *)
  Definition written (mi : minput N T E) (s : syntax N T E) : Prop :=
    (exists v, means (mi_symbols mi) (mi_start mi) v /\ sx_start s = nix v) /\
    List.length (sx_rules s) = List.length (mi_rules mi) /\
    forall i r, nth_error (mi_rules mi) i = Some r -> exists n v l,
      rule_name (mi_rules mi) i n /\ means (mi_symbols mi) n v /\ Forall2 (sym_means mi) (bn_rule r) l /\
      nth_error (sx_rules s) i = Some (rule_new nix tix v l (bn_gen r)).

  (** different names stand for different variants *)
  Definition distinct {K V} (ix : V -> nat) (items : list (K * V)) : Prop :=
    forall k v k' v', In (k, v) items -> In (k', v') items -> ix v = ix v' -> k = k'.

  (** what the macro cannot translate *)
  Definition bad_name (mi : minput N T E) : Prop :=
    unknown (mi_symbols mi) (mi_start mi) \/
    (exists r rest, mi_rules mi = r :: rest /\ bn_key r = Follow) \/
    exists r, In r (mi_rules mi) /\
      ((exists n, bn_key r = Named n /\ unknown (mi_symbols mi) n) \/
       (exists k, In (BTerminal k) (bn_rule r) /\ unknown (mi_tokens mi) k) \/
       (exists n, In (BNonTerminal n) (bn_rule r) /\ unknown (mi_symbols mi) n)).
End Written.
