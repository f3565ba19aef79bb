(** * More fuel does not change the outcome of [lr_new] *)
From Coq Require Import List Arith Lia Bool.
From Verif Require Import Lib Grammar LrModel.
Import ListNotations.

Definition le_res {A} (x y : res A) : Prop := x = OutOfFuel \/ x = y.

Lemma le_res_refl {A} (x : res A) : le_res x x. Proof. right. auto. Qed.
Lemma le_bind {A B} (x y : res A) (f g : A -> res B) : le_res x y -> (forall a, le_res (f a) (g a)) -> le_res (bind x f) (bind y g).
Proof. intros [->| ->] H; [left; auto|]. destruct y; simpl; [apply H|right; auto|left; auto]. Qed.
Lemma le_mapM {A B} (f g : A -> res B) l : (forall a, le_res (f a) (g a)) -> le_res (mapM f l) (mapM g l).
Proof.
  intros H. induction l as [|a l IH]; simpl; [apply le_res_refl|]. apply le_bind; auto. intros b. apply le_bind; auto. intros; apply le_res_refl.
Qed.
Lemma le_loop {S R} (f g : S -> S + res R) : (forall s, f s = inr OutOfFuel \/ f s = g s) ->
  forall n m s, n <= m -> le_res (loop f n s) (loop g m s).
Proof.
  intros H. induction n as [|n IH]; intros m s Hm; [left; auto|]. destruct m as [|m]; [lia|]. simpl.
  destruct (H s) as [E|E]; rewrite E; [left; auto|]. destruct (g s); [apply IH; lia|apply le_res_refl].
Qed.
Lemma le_loop_same {S R} (f : S -> S + res R) n m s : n <= m -> le_res (loop f n s) (loop f m s).
Proof. apply le_loop. auto. Qed.

Lemma le_calc_closure rs nl fm n m st : n <= m -> le_res (calc_closure rs nl fm n st) (calc_closure rs nl fm m st).
Proof. apply le_loop_same. Qed.
Lemma le_calc_goto rs nl fm n m st : n <= m -> le_res (calc_goto rs nl fm n st) (calc_goto rs nl fm m st).
Proof.
  intros H. unfold calc_goto. apply le_bind; [apply le_res_refl|]. intros g. apply le_mapM. intros xs.
  apply le_bind; [apply le_calc_closure; auto|]. intros; apply le_res_refl.
Qed.
Lemma le_calc_all_goto rs nl fm ord n m st : n <= m -> le_res (calc_all_goto rs nl fm ord n st) (calc_all_goto rs nl fm ord m st).
Proof.
  intros H. unfold calc_all_goto. apply le_loop; auto. intros [q sl]. unfold all_step. cbn [fst snd]. destruct q as [|s q]; auto.
  destruct (aget list_eqb s sl); auto. destruct (le_calc_goto rs nl fm n m s H) as [E|E]; rewrite E; auto.
Qed.
Lemma le_lr_new e n m rules start : n <= m -> le_res (lr_new e n rules start) (lr_new e m rules start).
Proof.
  intros H. unfold lr_new. repeat (apply le_bind; [first [apply le_res_refl|apply le_loop_same; auto|apply le_calc_closure; auto|apply le_calc_all_goto; auto]|intros ?]).
  apply le_res_refl.
Qed.
Lemma lr_new_mono e n m rules start r : lr_new e n rules start = r -> r <> OutOfFuel -> n <= m -> lr_new e m rules start = r.
Proof. intros E Hr Hn. destruct (le_lr_new e n m rules start Hn); congruence. Qed.
