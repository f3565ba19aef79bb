(** * A check that every symbol of a grammar derives some word *)
From Coq Require Import List Arith Bool.
From Verif Require Import Lib Grammar.
Import ListNotations.

Definition known (l : list nat) (X : sym) : bool := match X with TM _ => true | NT A => existsb (Nat.eqb A) l end.
Definition grow (rs : list rule) (l : list nat) : list nat := map r_lhs (filter (fun r => forallb (known l) (r_rhs r)) rs).
Fixpoint grown (rs : list rule) (n : nat) : list nat := match n with 0 => [] | S n => grow rs (grown rs n) end.
Definition prod_check (rs : list rule) (n : nat) : bool := forallb (fun r => forallb (known (grown rs n)) (r_rhs r)) rs.

Lemma known_ders rs l : (forall A, In A l -> exists w, der rs (NT A) w) -> forall ys, forallb (known l) ys = true -> exists w, ders rs ys w.
Proof.
  intros Hl. induction ys as [|X ys IH]; simpl; intros H; [exists []; constructor|]. apply andb_prop in H as [H1 H2]. destruct (IH H2) as [w Hw].
  assert (H : exists u, der rs X u).
  { destruct X as [A|t]; [|exists [t]; constructor]. simpl in H1. apply existsb_exists in H1 as (B & HB & E). apply Nat.eqb_eq in E. subst B. auto. }
  destruct H as [u Hu]. exists (u ++ w). constructor; auto.
Qed.
Lemma grown_der rs n : forall A, In A (grown rs n) -> exists w, der rs (NT A) w.
Proof.
  induction n as [|n IH]; intros A H; [destruct H|]. simpl in H. unfold grow in H. apply in_map_iff in H as (r & <- & Hr). apply filter_In in Hr as [Hr Hk].
  destruct (known_ders rs _ IH _ Hk) as [w Hw]. exists w. apply der_rule; auto.
Qed.
Lemma prod_check_sound rs n : prod_check rs n = true -> productive rs.
Proof.
  intros H r X Hr HX. unfold prod_check in H. rewrite forallb_forall in H. specialize (H r Hr). rewrite forallb_forall in H. specialize (H X HX).
  destruct (known_ders rs (grown rs n) (grown_der rs n) [X]) as [w Hw]; [simpl; rewrite H; auto|]. inversion Hw as [|? ? u u' Hu Hn]; subst. eauto.
Qed.
