(** Model of tokenizer/src/tokenizer.rs, tokenizer/src/tokenizer/iter.rs and of the table
    translation in tokenizer_generator/src/lib.rs.  Characters are code points ([N]); a
    string slice is the list of its code points. *)
From Verif Require Import Lib Hir NfaModel DfaModel MinModel.

(** DFATokenizer, tokenizer/src/tokenizer.rs:12-17.  The BTreeMaps of [goto] are lists sorted
    by range start; the HashMap [end] is an association list.  Makers are pure functions of
    the text and the items. *)
Record tokenizer (E T : Type) := mk_tok {
  tk_goto : list (list (crange * nat));
  tk_begin : nat;
  tk_end : list (nat * nat);
  tk_makers : list (list N -> list T -> E)
}.
Arguments mk_tok {E T}. Arguments tk_goto {E T}. Arguments tk_begin {E T}. Arguments tk_end {E T}. Arguments tk_makers {E T}.

Section Tok.
  Context {E T : Type}.
  Notation maker := (list N -> list T -> E).

  (** index_map[node], tokenizer/src/tokenizer.rs:55: a node of the automaton is identified by
      its position, so the map is the identity on the existing positions. *)
  Definition index_map (d : dfa) (n : nat) : res nat := if Nat.ltb n (length (d_nodes d)) then Ok n else Panic.

  (** DFATokenizer::new, tokenizer/src/tokenizer.rs:54-60 *)
  Definition tok_new (d : dfa) (makers : list maker) : res (tokenizer E T) :=
    do goto <- mapM (mapM (fun kv => do j <- index_map d (snd kv); Ok (fst kv, j))) (d_nodes d);
    do b <- index_map d (d_begin d);
    do en <- foldM (fun en kv => do j <- index_map d (fst kv); Ok (aset Nat.eqb j (snd kv) en)) (d_end d) [];
    Ok (mk_tok goto b en makers).

  (** get_accept_index, tokenizer/src/tokenizer.rs:62-64 *)
  Definition accept_index (t : tokenizer E T) (n : nat) : option nat := aget Nat.eqb n (tk_end t).
  (** get_next_node, tokenizer/src/tokenizer.rs:66-69; [goto[node]] may panic *)
  Definition next_node (t : tokenizer E T) (n : nat) (c : N) : res (option nat) :=
    do m <- of_opt (nth_error (tk_goto t) n); Ok (lookup c m).

  (** TokenizeIterator, tokenizer/src/tokenizer/iter.rs:13-22, without the tokenizer and the
      map: what the underlying iterator will still deliver, and the pushed back items. *)
  Record titer := mk_titer { ti_iter : list T; ti_queue : list T }.

  (** queue.pop_front().or_else(|| iter.next()), iter.rs:55 *)
  Definition pop (s : titer) : option (T * titer) :=
    match ti_queue s with
    | x :: q => Some (x, mk_titer (ti_iter s) q)
    | [] => match ti_iter s with
            | x :: it => Some (x, mk_titer it [])
            | [] => None
            end
    end.

  (** Local variables of [next], iter.rs:48-54 *)
  Record scan := mk_scan {
    sc_node : nat; sc_pat : option nat; sc_len : nat; sc_i : nat;
    sc_items : list T; sc_chars : list N; sc_src : titer
  }.

  (** One iteration of the scanning loop, iter.rs:55-70.  [map] is a pure function here. *)
  Definition scan_step (t : tokenizer E T) (map : T -> N) (s : scan) : scan + res scan :=
    match pop (sc_src s) with
    | None => inr (Ok s)
    | Some (x, src) =>
        let c := map x in
        let i := S (sc_i s) in
        let items := sc_items s ++ [x] in
        let chars := sc_chars s ++ [c] in
        match next_node t (sc_node s) c with
        | Ok (Some n) =>
            match accept_index t n with
            | Some p => inl (mk_scan n (Some p) i i items chars src)
            | None => inl (mk_scan n (sc_pat s) (sc_len s) i items chars src)
            end
        | Ok None => inr (Ok (mk_scan (sc_node s) (sc_pat s) (sc_len s) i items chars src))
        | Panic => inr Panic
        | OutOfFuel => inr OutOfFuel
        end
    end.

  (** while items.len() > last_matched_length { queue.push_front(items.pop().unwrap()) },
      iter.rs:72-74; items are given last first *)
  Fixpoint give_back (ritems : list T) (len : nat) (q : list T) : list T * list T :=
    if Nat.ltb len (length ritems) then
      match ritems with
      | x :: r => give_back r len (x :: q)
      | [] => (ritems, q)
      end
    else (ritems, q).

  (** TokenizeIterator::next, iter.rs:47-80.  The scanning loop gets one iteration per pending
      item and one more; TokProofs shows that this is enough. *)
  Definition next (t : tokenizer E T) (map : T -> N) (s : titer) : res (option E * titer) :=
    let fuel := S (length (ti_queue s) + length (ti_iter s)) in
    do sc <- loop (scan_step t map) fuel (mk_scan (tk_begin t) (accept_index t (tk_begin t)) 0 0 [] [] s);
    match sc_pat sc with
    | Some p =>
        let (ritems, q) := give_back (rev (sc_items sc)) (sc_len sc) (ti_queue (sc_src sc)) in
        do f <- of_opt (nth_error (tk_makers t) p);
        Ok (Some (f (firstn (sc_len sc) (sc_chars sc)) (rev ritems)), mk_titer (ti_iter (sc_src sc)) q)
    | None => Ok (None, sc_src sc)
    end.

  (** Iterator::collect (standard library): call [next] until it returns None (tokenizer/src/tokenizer/iter.rs:47-79) *)
  Definition collect_step (t : tokenizer E T) (map : T -> N) (st : titer * list E) : (titer * list E) + res (list E) :=
    match next t map (fst st) with
    | Ok (Some e, s') => inl (s', snd st ++ [e])
    | Ok (None, _) => inr (Ok (snd st))
    | Panic => inr Panic
    | OutOfFuel => inr OutOfFuel
    end.
  (** tokenizer/src/tokenizer/iter.rs:47-79 *)
  Definition tok_collect (fuel : nat) (t : tokenizer E T) (map : T -> N) (s : titer) : res (list E) :=
    loop (collect_step t map) fuel (s, []).

  (** tokenize_with, iter.rs:37-39 *)
  Definition tokenize_with (input : list T) : titer := mk_titer input [].

  (** ** Building *)
  Section Build.
    (** Pattern strings and regex_syntax::Parser::parse are parameters *)
    Variables (P PErr : Type) (parse : P -> hir + PErr).

    (** NFARegexConstructError, tokenizer/src/nfa.rs:117-121 *)
    Inductive build_err := RegexError (e : PErr) | ConstructError (e : nerr).
    (** tokenizer/src/tokenizer.rs:106 *)
    Inductive bres (A : Type) := BOk (a : A) | BErr (e : build_err) | BPanic | BFuel.
    Arguments BOk {A}. Arguments BErr {A}. Arguments BPanic {A}. Arguments BFuel {A}.

    (** What hash tables decide during one build (tokenizer/src/dfa.rs:119, 150-156, 174, 184) *)
    Record build_env := mk_env {
      be_order : list (list nat * nat) -> list (list nat * nat);
      be_min : hash_oracle
    }.

    (** The parsing loop, tokenizer/src/nfa.rs:127-131: the first error wins *)
    Fixpoint parse_all (ps : list P) : list hir + PErr :=
      match ps with
      | [] => inl []
      | p :: ps' =>
          match parse p with
          | inr e => inr e
          | inl h => match parse_all ps' with inr e => inr e | inl hs => inl (h :: hs) end
          end
      end.

    (** tokenizer/src/tokenizer.rs:109-111 *)
    Definition of_res {A} (r : res A) : bres A := match r with Ok a => BOk a | Panic => BPanic | OutOfFuel => BFuel end.

    (** TokenizerBuilder::build, tokenizer/src/tokenizer.rs:105-112 *)
    Definition build (env : build_env) (fuel : nat) (patterns : list (P * maker)) : bres (tokenizer E T * list end_conflict) :=
      let (regex, functions) := split patterns in
      match parse_all regex with
      | inr e => BErr (RegexError e)
      | inl hirs =>
          match tnfa_of hirs with
          | NErr e => BErr (ConstructError e)
          | NPanic => BPanic
          | NOk nfa =>
              of_res (do (d, ws) <- dfa_of (be_order env) fuel nfa;
                      do d' <- minify (be_min env) d;
                      do t <- tok_new d' functions;
                      Ok (t, ws))
          end
      end.
  End Build.
End Tok.
Arguments BOk {PErr A}. Arguments BErr {PErr A}. Arguments BPanic {PErr A}. Arguments BFuel {PErr A}.
Arguments RegexError {PErr}. Arguments ConstructError {PErr}.

(** ** The tokenizer! macro, tokenizer_generator/src/lib.rs:75-142: build once with dummy
    makers, write the tables out as insert statements, run them in the generated function
    with the given makers. *)
Section Macro.
  Context {E T : Type}.
  Variables (P PErr : Type) (parse : P -> hir + PErr).

  (** the statements map.insert(CharRange{start..end}, value), lib.rs:93-97 *)
  Definition emit_map (m : list (crange * nat)) : list (crange * nat) :=
    fold_left (fun acc kv => rset (fst kv) (snd kv) acc) m [].
  (** the statements of the HashMap [end], lib.rs:107-115; [order] is the iteration order *)
  Definition emit_end (m : list (nat * nat)) : list (nat * nat) :=
    fold_left (fun acc kv => aset Nat.eqb (fst kv) (snd kv) acc) m [].

  (** tokenizer_generator/src/lib.rs:75-142 *)
  Definition unit_maker : list N -> list N -> unit := fun _ _ => tt.

  (** tokenizer_generator/src/lib.rs:75-142 *)
  Definition tokenizer_macro (env : build_env) (order : list (nat * nat) -> list (nat * nat)) (fuel : nat)
             (rules : list (P * (list N -> list T -> E))) : bres PErr (tokenizer E T) :=
    let (regex, makers) := split rules in
    match build P PErr parse env fuel (map (fun r => (r, unit_maker)) regex) with
    | BOk (t, _) => BOk (mk_tok (map emit_map (tk_goto t)) (tk_begin t) (emit_end (order (tk_end t))) makers)
    | BErr _ => BPanic (* .expect("failed to build tokenizer"), lib.rs:82 *)
    | BPanic => BPanic
    | BFuel => BFuel
    end.
End Macro.
