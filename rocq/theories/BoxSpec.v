(** Allocators and hash tables as they can be (for C85). *)
From Coq Require Import Permutation.
From Verif Require Import Lib Hir NfaModel DfaModel MinModel BoxModel.

(** an address in use is not handed out; every iteration visits every entry once; a key that is in a table is found *)
Record env_fine (ev : box_env) : Prop := {
  ef_alloc : forall t l, ~ In (ev_alloc ev t l) l;
  ef_edges : forall a r l, Permutation (ev_edges ev a r l) l;
  ef_order : forall l, Permutation (ev_order ev l) l;
  ef_groups : forall it l, Permutation (ev_groups ev it l) l;
  ef_min : oracle_ok (ev_min ev)
}.
Definition no_boxes (clock : nat) : boxes := mk_boxes [] [] clock.
