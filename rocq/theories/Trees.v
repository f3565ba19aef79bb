(** * Derivation trees and their evaluation (specification) *)
From Coq Require Import List Arith Lia Bool.
From Verif Require Import Lib Grammar ParseModel.
Import ListNotations.

(** A derivation tree over the positions of an input: a token, a skipped piece [lo..=hi] of the input
    standing for the error symbol, or an application of rule number [k]. *)
Inductive tree := Leaf (i : nat) | Bad (lo hi : nat) | Node (k : nat) (ts : list tree).

(** the positions of the token leaves, from left to right *)
Fixpoint leaves (t : tree) : list nat :=
  match t with Leaf i => [i] | Bad _ _ => [] | Node _ ts => flat_map leaves ts end.

(** no error leaves *)
Fixpoint clean (t : tree) : bool :=
  match t with Leaf _ => true | Bad _ _ => false | Node _ ts => forallb clean ts end.

Section TreeOf.
  Context {T : Type} (tix : T -> nat) (rs : list rule) (input : list T).

  (** [twf X t]: [t] is a derivation tree for the symbol [X]. *)
  Inductive twf : sym -> tree -> Prop :=
  | twf_leaf i x : nth_error input i = Some x -> twf (TM (TSym (tix x))) (Leaf i)
  | twf_bad lo hi : lo <= hi -> hi < length input -> twf (TM TErr) (Bad lo hi)
  | twf_node k r ts : nth_error rs k = Some r -> twfs (r_rhs r) ts -> twf (NT (r_lhs r)) (Node k ts)
  with twfs : list sym -> list tree -> Prop :=
  | twfs_nil : twfs [] []
  | twfs_cons X l t ts : twf X t -> twfs l ts -> twfs (X :: l) (t :: ts).
End TreeOf.
Scheme twf_mut := Minimality for twf Sort Prop
with twfs_mut := Minimality for twfs Sort Prop.
Combined Scheme twf_twfs_ind from twf_mut, twfs_mut.

(** ** Evaluation: from left to right, children before their parent, the first failure ends it *)
Definition gbind {A B E} (x : gres A E) (f : A -> gres B E) : gres B E :=
  match x with GOk a => f a | GErr e => GErr e | GPanic => GPanic end.
Section Gmap.
  Context {A B E : Type} (f : A -> gres B E).
  Fixpoint gmap (l : list A) : gres (list B) E :=
    match l with [] => GOk [] | a :: l' => gbind (f a) (fun b => gbind (gmap l') (fun bs => GOk (b :: bs))) end.
End Gmap.

Section Eval.
  Context {N T E : Type} (gens : list (reducer N T E)) (input : list T).

  Definition call (k : nat) (args : list (arg N T)) : gres N E :=
    match nth_error gens k with Some g => g args | None => GPanic end.

  (** the argument a tree stands for *)
  Fixpoint ev (t : tree) : gres (arg N T) E :=
    match t with
    | Leaf i => match nth_error input i with Some x => GOk (Terminal x) | None => GPanic end
    | Bad lo hi => GOk (ErrorSym (firstn (S hi - lo) (skipn lo input)))
    | Node k ts => gbind (gmap ev ts) (fun args => gbind (call k args) (fun v => GOk (NonTerminal v)))
    end.
End Eval.

(** ** The reducer calls an evaluation makes, in order: the number of the rule and the arguments *)
Section Log.
  Context {N T E : Type} (gens : list (reducer N T E)) (input : list T).
  Notation lg A := (list (nat * list (arg N T)) * gres A E)%type (only parsing).

  Section Lmap.
    Context {A B : Type} (f : A -> lg B).
    Fixpoint lmap (l : list A) : lg (list B) :=
      match l with
      | [] => ([], GOk [])
      | a :: l' =>
          match f a with
          | (c, GOk b) => (c ++ fst (lmap l'), gbind (snd (lmap l')) (fun bs => GOk (b :: bs)))
          | (c, GErr e) => (c, GErr e)
          | (c, GPanic) => (c, GPanic)
          end
      end.
  End Lmap.

  Fixpoint evl (t : tree) : lg (arg N T) :=
    match t with
    | Leaf _ | Bad _ _ => ([], ev gens input t)
    | Node k ts =>
        match lmap evl ts with
        | (c, GOk args) => (c ++ [(k, args)], gbind (call gens k args) (fun v => GOk (NonTerminal v)))
        | (c, GErr e) => (c, GErr e)
        | (c, GPanic) => (c, GPanic)
        end
    end.
End Log.

(** induction on trees *)
Lemma tree_ind' (Q : tree -> Prop) :
  (forall i, Q (Leaf i)) -> (forall lo hi, Q (Bad lo hi)) -> (forall k ts, Forall Q ts -> Q (Node k ts)) -> forall t, Q t.
Proof.
  intros H1 H2 H3. fix IH 1. intros [i|lo hi|k ts]; [apply H1|apply H2|]. apply H3. induction ts as [|t ts IHts]; constructor; [apply IH|exact IHts].
Qed.

Lemma gmap_app {A B E} (f : A -> gres B E) l1 l2 :
  gmap f (l1 ++ l2) = gbind (gmap f l1) (fun b1 => gbind (gmap f l2) (fun b2 => GOk (b1 ++ b2))).
Proof.
  induction l1 as [|a l1 IH]; simpl.
  - destruct (gmap f l2); reflexivity.
  - destruct (f a); simpl; auto. rewrite IH. destruct (gmap f l1); simpl; auto. destruct (gmap f l2); reflexivity.
Qed.

Lemma twfs_app {T} (tix : T -> nat) rs input l1 l2 ts1 ts2 :
  twfs tix rs input l1 ts1 -> twfs tix rs input l2 ts2 -> twfs tix rs input (l1 ++ l2) (ts1 ++ ts2).
Proof. intros H1 H2. induction H1; simpl; auto. constructor; auto. Qed.
Lemma twfs_app_inv {T} (tix : T -> nat) rs input l1 l2 ts :
  twfs tix rs input (l1 ++ l2) ts -> exists ts1 ts2, ts = ts1 ++ ts2 /\ twfs tix rs input l1 ts1 /\ twfs tix rs input l2 ts2.
Proof.
  revert ts. induction l1 as [|X l1 IH]; simpl; intros ts H.
  - exists [], ts. split; auto. split; [constructor|auto].
  - inversion H as [|X' l' t ts' Ha Hb]; subst. destruct (IH _ Hb) as (ts1 & ts2 & -> & H1 & H2). exists (t :: ts1), ts2. split; auto. split; [constructor|]; auto.
Qed.
Lemma twfs_len {T} (tix : T -> nat) rs input l ts : twfs tix rs input l ts -> length l = length ts.
Proof. induction 1; simpl; congruence. Qed.

Lemma lmap_snd {N T E A B} (f : A -> list (nat * list (arg N T)) * gres B E) l :
  snd (lmap f l) = gmap (fun a => snd (f a)) l.
Proof.
  induction l as [|a l IH]; simpl; auto. destruct (f a) as [c [b|e|]]; simpl; auto. rewrite IH. destruct (gmap _ l); reflexivity.
Qed.
Lemma evl_snd {N T E} (gens : list (reducer N T E)) input t : snd (evl gens input t) = ev gens input t.
Proof.
  induction t as [i|lo hi|k ts IH] using tree_ind'; auto. cbn [evl ev]. 
  assert (H : snd (lmap (evl gens input) ts) = gmap (ev gens input) ts).
  { rewrite lmap_snd. induction IH as [|t ts Ht Hts IHl]; auto. cbn [gmap]. rewrite Ht, IHl. reflexivity. }
  rewrite <- H. destruct (lmap (evl gens input) ts) as [c [args|e|]]; reflexivity.
Qed.
