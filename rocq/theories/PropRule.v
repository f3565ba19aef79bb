(** * Property C64: the ways to write down a grammar agree *)
From Coq Require Import List Arith.
From Verif Require Import Lib Grammar LrModel ParseModel ParseSpec ParseExamples.
Import ListNotations.

Section Spec.
  Context {N T E : Type} (nix : N -> nat) (tix : T -> nat).
  (** what a symbol of the user means: the class of nonterminals or tokens with the same index, or the error symbol *)
  Inductive stands_for : symbol N T unit -> sym -> Prop :=
  | for_nt n : stands_for (NonTerminal n) (NT (nix n))
  | for_t t : stands_for (Terminal t) (TM (TSym (tix t)))
  | for_err : stands_for (ErrorSym tt) (TM TErr).
  (** the same with indices in the place of examples *)
  Definition by_index (X : symbol N T unit) : symbol nat nat unit :=
    match X with NonTerminal n => NonTerminal (nix n) | Terminal t => Terminal (tix t) | ErrorSym u => ErrorSym u end.
  (** [chain b a l]: [Rule::builder(a)] followed by one call of [non_terminal], [terminal] or [error] for each symbol of [l] *)
  Inductive chain : rule_builder -> N -> list (symbol N T unit) -> Prop :=
  | chain_start a : chain (rb_new nix a) a []
  | chain_nt b a l n : chain b a l -> chain (rb_non_terminal nix b n) a (l ++ [NonTerminal n])
  | chain_t b a l t : chain b a l -> chain (rb_terminal tix b t) a (l ++ [Terminal t])
  | chain_err b a l : chain b a l -> chain (rb_error b) a (l ++ [ErrorSym tt]).
End Spec.

Lemma new_stands {N T} (nix : N -> nat) (tix : T -> nat) l : Forall2 (stands_for nix tix) l
  (map (fun s => match s with NonTerminal n => NT (nix n) | Terminal t => TM (TSym (tix t)) | ErrorSym _ => TM TErr end) l).
Proof. induction l as [|[n|t|[]] l IH]; simpl; constructor; auto; constructor. Qed.

(** Every symbol list can be given to the builder, and [Rule::new], [Rule::new_raw] and the builder make the same rule of it, namely
    the one the symbols stand for, with the reducer given; [Syntax::builder] keeps the rules in the order of the calls. *)
Theorem C64_ways_agree : forall N T E (nix : N -> nat) (tix : T -> nat),
  (forall a l (g : reducer N T E), exists rhs, rule_new nix tix a l g = mk_crule (mk_rule (nix a) rhs) g /\ Forall2 (stands_for nix tix) l rhs) /\
  (forall a l (g : reducer N T E), rule_new_raw (nix a) (map (by_index nix tix) l) g = rule_new nix tix a l g) /\
  (forall a l, exists b, chain nix tix b a l) /\
  (forall b a l (g : reducer N T E), chain nix tix b a l -> rb_build b g = rule_new nix tix a l g) /\
  (forall (rs : list (crule N T E)) a, sb_build nix (fold_left sb_rule rs sb_new) a = mk_syntax rs (nix a) /\ sb_build_raw (fold_left sb_rule rs sb_new) (nix a) = mk_syntax rs (nix a)).
Proof.
  intros N T E nix tix. split; [|split; [|split; [|split]]].
  - intros a l g. eexists. split; [reflexivity|]. apply new_stands.
  - intros a l g. unfold rule_new_raw, rule_new. rewrite map_map. do 2 f_equal. apply map_ext. intros [n|t|[]]; reflexivity.
  - intros a l. induction l as [|X l [b IH]] using rev_ind; [eexists; constructor|]. destruct X as [n|t|[]]; eexists; constructor; exact IH.
  - intros b a l g H. unfold rule_new, rb_build. f_equal. induction H; rewrite ?map_app; simpl; try reflexivity; injection IHchain as <- <-; reflexivity.
  - intros rs a. assert (G : forall l, fold_left sb_rule rs l = l ++ rs).
    { induction rs as [|r rs IH]; intros l; simpl; [rewrite app_nil_r; reflexivity|]. rewrite IH. unfold sb_rule. rewrite <- app_assoc. reflexivity. }
    unfold sb_build, sb_build_raw. rewrite G. auto.
Qed.
Print Assumptions C64_ways_agree.
Example C64_example : exists b, chain (fun n : nat => n) (fun t : bool => if t then 1 else 0) b 5 [Terminal true; ErrorSym tt; NonTerminal 7; Terminal false] /\
  rb_syms b = [TM (TSym 1); TM TErr; NT 7; TM (TSym 0)].
Proof.
  set (nx := fun n : nat => n). set (tx := fun t : bool => if t then 1 else 0). exists (rb_terminal tx (rb_non_terminal nx (rb_error (rb_terminal tx (rb_new nx 5) true)) 7) false).
  split; [|reflexivity]. apply (chain_t nx tx _ 5 [_; _; _]), (chain_nt nx tx _ 5 [_; _]), (chain_err nx tx _ 5 [_]), (chain_t nx tx _ 5 []), chain_start.
Qed.
