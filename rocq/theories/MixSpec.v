(** * In which order the iterator and the reducers are to run (specification) *)
From Coq Require Import List Arith.
From Verif Require Import Lib Grammar LrModel ParseModel Trees ParseSpec EffModel EffSpec MixModel.
Import ListNotations.

(** ** Evaluation of a tree one token ahead

    The evaluation goes from left to right, children before their parent.  One token has been taken from the iterator
    in advance.  A leaf is this token, and the next one is taken at once.  So when a reducer is called, the
    iterator has been asked for exactly one token behind those that the node of the reducer and everything before it cover. *)
Section Ahead.
  Context {M N T E : Type} (next : M -> res (option T) * M) (gs : list (ereducer M N T E)).
  (** the state, the token taken in advance ([None]: the end), and all answers of the iterator so far *)
  Definition ahead : Type := M * option T * list (option T).

  (** ask the iterator; it may panic *)
  Definition advance (c : ahead) : gres unit E * ahead :=
    match c with
    | (m, la, ys) =>
        match next m with
        | (Ok y, m') => (GOk tt, (m', y, ys ++ [y]))
        | (_, m') => (GPanic, (m', la, ys))
        end
    end.
  Fixpoint ave (t : tree) (c : ahead) : gres (arg N T) E * ahead :=
    match t with
    | Leaf _ =>
        match c with
        | (_, Some x, _) => let (r, c') := advance c in (gbind r (fun _ => GOk (Terminal x)), c')
        | (_, None, _) => (GPanic, c)
        end
    | Bad _ _ => (GPanic, c)
    | Node k ts =>
        match emap ave ts c with
        | (GOk args, (m, la, ys)) => let (r, m') := ecall gs k m args in (gbind r (fun v => GOk (NonTerminal v)), (m', la, ys))
        | (GErr e, c') => (GErr e, c')
        | (GPanic, c') => (GPanic, c')
        end
    end.
  (** the result, the state and the answers of the iterator *)
  Definition evaluate_ahead (t : tree) (m : M) : gres (arg N T) E * M * list (option T) :=
    let (r, c) := advance (m, None, []) in
    let (r', c') := match r with GOk _ => ave t c | GErr e => (GErr e, c) | GPanic => (GPanic, c) end in
    match c' with (m', _, ys) => (r', m', ys) end.
End Ahead.

(** the answers [ys] are the tokens [w] from the beginning, and the end after the last *)
Definition answers {T} (ys : list (option T)) (w : list T) : Prop := forall i y, nth_error ys i = Some y -> y = nth_error w i.

Section Words.
  Context {M N T E : Type} (tix : T -> nat) (next : M -> res (option T) * M).
  (** [parse] in the state [m] returns [o], panics; [m'] is the state afterwards *)
  Definition mix_returns (P : eparser M N T E) (m : M) (o : outcome N E) (m' : M) : Prop := exists fuel, mix_parse tix next P fuel m = Ok (Ok o, m').
  Definition mix_panics (P : eparser M N T E) (m : M) (m' : M) : Prop := exists fuel, mix_parse tix next P fuel m = Ok (Panic, m').
  (** [parse] does what the evaluation of a tree does *)
  Definition mix_yields (P : eparser M N T E) (m : M) (r : gres (arg N T) E) (m' : M) : Prop :=
    match r with
    | GOk (NonTerminal v) => mix_returns P m (ROk v) m'
    | GOk _ => False
    | GErr e => mix_returns P m (RReducer e) m'
    | GPanic => mix_panics P m m'
    end.
End Words.
