(** * What reducers with effects are to do (specification) *)
From Coq Require Import List Arith.
From Verif Require Import Lib Grammar LrModel ParseModel Trees ParseSpec EffModel.
Import ListNotations.

(** ** Evaluation of a tree with effects: from left to right, children before their parent, each call in the state
    the one before has left; the first failure ends it *)
Section Emap.
  Context {M A B E : Type} (f : A -> M -> gres B E * M).
  Fixpoint emap (l : list A) (m : M) : gres (list B) E * M :=
    match l with
    | [] => (GOk [], m)
    | a :: l' =>
        match f a m with
        | (GOk b, m1) => let (r, m2) := emap l' m1 in (gbind r (fun bs => GOk (b :: bs)), m2)
        | (GErr e, m1) => (GErr e, m1)
        | (GPanic, m1) => (GPanic, m1)
        end
    end.
End Emap.
Section Eve.
  Context {M N T E : Type} (gs : list (ereducer M N T E)) (input : list T).
  Fixpoint eve (t : tree) (m : M) : gres (arg N T) E * M :=
    match t with
    | Leaf i => (match nth_error input i with Some x => GOk (Terminal x) | None => GPanic end, m)
    | Bad lo hi => (GOk (ErrorSym (firstn (S hi - lo) (skipn lo input))), m)
    | Node k ts =>
        match emap eve ts m with
        | (GOk args, m1) => let (r, m2) := ecall gs k m1 args in (gbind r (fun v => GOk (NonTerminal v)), m2)
        | (GErr e, m1) => (GErr e, m1)
        | (GPanic, m1) => (GPanic, m1)
        end
    end.
End Eve.

Section Words.
  Context {M N T E : Type} (tix : T -> nat).
  Definition egens (s : esyntax M N T E) : list (ereducer M N T E) := map er_gen (es_rules s).

  (** [LR1Parser::new] on [s] returned the parser [P] and the warnings [ws] *)
  Definition eff_makes (e : lr_env) (s : esyntax M N T E) (P : eparser M N T E) (ws : list warning) : Prop :=
    lr_env_ok e /\ exists fuel, eff_new e fuel s = Ok (P, ws).

  (** [parse] in the state [m] on the tokens [w] returns [o], panics; [m'] is the state afterwards *)
  Definition eff_returns (P : eparser M N T E) (m : M) (w : list T) (o : outcome N E) (m' : M) : Prop :=
    exists fuel it, eff_parse tix P fuel m w = Ok (Ok (o, it), m').
  Definition eff_panics (P : eparser M N T E) (m : M) (w : list T) (m' : M) : Prop :=
    exists fuel, eff_parse tix P fuel m w = Ok (Panic, m').

  (** [parse] does what the evaluation [r] of a derivation tree does, and leaves the same state *)
  Definition eff_yields (P : eparser M N T E) (m : M) (w : list T) (r : gres (arg N T) E * M) : Prop :=
    match r with
    | (GOk (NonTerminal v), m') => eff_returns P m w (ROk v) m'
    | (GOk _, _) => False
    | (GErr e, m') => eff_returns P m w (RReducer e) m'
    | (GPanic, m') => eff_panics P m w m'
    end.

  (** the reducer calls of a run of at most [fuel] turns, in order: the number of the rule, the arguments, the result *)
  Fixpoint ecalls (P : eparser M N T E) (fuel : nat) (ms : M * pstate N T) : list (nat * list (arg N T) * gres N E) :=
    match fuel with
    | 0 => []
    | S f => match step_call tix (parser_at P (fst ms)) (snd ms) with
             | Some (k, args) => [(k, args, fst (ecall (ep_gens P) k (fst ms) args))]
             | None => []
             end ++
             match eff_step tix P ms with inl ms' => ecalls P f ms' | inr _ => [] end
    end.
  Definition eff_calls (P : eparser M N T E) (fuel : nat) (m : M) (w : list T) := ecalls P fuel (eff_init P m w).
End Words.

(** ** Two runs on inputs with tokens of the same kinds *)
Section Same.
  Context {N1 T1 E1 N2 T2 E2 : Type} (w1 : list T1) (w2 : list T2).
  (** tokens at the same place of the two inputs *)
  Definition same_place (x : T1) (y : T2) : Prop := exists i, nth_error w1 i = Some x /\ nth_error w2 i = Some y.
  Definition same_arg (a : arg N1 T1) (b : arg N2 T2) : Prop :=
    match a, b with
    | NonTerminal _, NonTerminal _ => True
    | Terminal x, Terminal y => same_place x y
    | ErrorSym l, ErrorSym l' => Forall2 same_place l l'
    | _, _ => False
    end.
  (** the calls are of the same rules with the same tokens, until a reducer fails; a run makes no call after that *)
  Inductive same_calls : list (nat * list (arg N1 T1) * gres N1 E1) -> list (nat * list (arg N2 T2) * gres N2 E2) -> Prop :=
  | same_nil : same_calls [] []
  | same_ok k a1 v1 l1 a2 v2 l2 : Forall2 same_arg a1 a2 -> same_calls l1 l2 ->
      same_calls ((k, a1, GOk v1) :: l1) ((k, a2, GOk v2) :: l2)
  | same_fail k a1 r1 l1 a2 r2 l2 : Forall2 same_arg a1 a2 -> ((forall v, r1 <> GOk v) /\ l1 = [] \/ (forall v, r2 <> GOk v) /\ l2 = []) ->
      same_calls ((k, a1, r1) :: l1) ((k, a2, r2) :: l2).
  (** both accept, both find a syntax error, both panic, or both are still running; after the same number of tokens *)
  Definition same_end {M1 M2} (x : res (res (outcome N1 E1 * list T1) * M1)) (y : res (res (outcome N2 E2 * list T2) * M2)) : Prop :=
    match x, y with
    | Ok (Ok (ROk _, it1), _), Ok (Ok (ROk _, it2), _) => length it1 = length it2
    | Ok (Ok (RNotFound, it1), _), Ok (Ok (RNotFound, it2), _) => length it1 = length it2
    | Ok (Panic, _), Ok (Panic, _) => True
    | OutOfFuel, OutOfFuel => True
    | _, _ => False
    end.
End Same.
