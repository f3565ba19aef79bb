(** The same nondeterministic automaton at other addresses (for C84). *)
From Coq Require Import Permutation.
From Verif Require Import Lib Hir NfaModel.

(** [place] gives the address of every node of [t]; [t'] is the memory with [t] in it: the list [tn_nodes t'] is indexed by
    addresses and may have other cells too.  The hash sets of pointers may be listed in any order. *)
Record placed (place : nat -> nat) (t t' : tnfa) : Prop := {
  pl_distinct : forall x y, place x = place y -> x = y;
  pl_node : forall p nd, nth_error (tn_nodes t) p = Some nd -> exists nd', nth_error (tn_nodes t') (place p) = Some nd' /\
    Permutation (map place (n_eps nd)) (n_eps nd') /\
    Forall2 (fun x x' => fst x = fst x' /\ Permutation (map place (snd x)) (snd x')) (n_next nd) (n_next nd');
  pl_begin : tn_begin t' = place (tn_begin t);
  pl_end : tn_end t' = map place (tn_end t)
}.
