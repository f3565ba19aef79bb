(** Model of tokenizer/src/dfa.rs: subset construction.  NFA nodes and DFA nodes, which the
    code addresses by pointers into vectors of boxes, are positions in those vectors;
    C84 shows that the results are the same for any other addresses. *)
From Verif Require Import Lib Hir NfaModel.

(** TokenizerNFANode::epsilon_recursive, tokenizer/src/nfa.rs:82-96.  The queue receives the
    epsilon successors in the order of the sorted list (the code iterates over a HashSet;
    the resulting set does not depend on the order). *)
Definition eps_step (h : list nnode) (s : list nat * list nat) : (list nat * list nat) + res (list nat) :=
  match fst s with
  | [] => inr (Ok (snd s))
  | n :: q =>
      if mem n (snd s) then inl (q, snd s)
      else match nth_error h n with
           | None => inr Panic
           | Some nd => inl (q ++ n_eps nd, ins n (snd s))
           end
  end.
(** Enough iterations: every node is expanded at most once. (tokenizer/src/nfa.rs:86) *)
Definition eps_fuel (h : list nnode) : nat := 3 + list_sum (map (fun n => length (n_eps n)) h).
(** tokenizer/src/nfa.rs:82-96 *)
Definition eps_rec (h : list nnode) (n : nat) : res (list nat) := loop (eps_step h) (eps_fuel h) ([n], []).

(** The nested map start -> end -> set of the loop body, tokenizer/src/dfa.rs:94-99 *)
Definition emap := list (N * list nat).
(** tokenizer/src/dfa.rs:95 *)
Definition bmap := list (N * emap).
(** tokenizer/src/dfa.rs:98 *)
Definition add_edge (r : crange) (s : list nat) (m : bmap) : bmap :=
  bupd (fst r) [] (fun em => bupd (snd r) [] (fun old => ins_all s old) em) m.

(** tokenizer/src/dfa.rs:97-99 *)
Definition collect_edge (h : list nnode) (m : bmap) (e : crange * list nat) : res bmap :=
  do ss <- mapM (eps_rec h) (snd e);
  Ok (add_edge (fst e) (to_set (concat ss)) m).
(** tokenizer/src/dfa.rs:96-100 *)
Definition collect_node (h : list nnode) (m : bmap) (n : nat) : res bmap :=
  do nd <- of_opt (nth_error h n);
  foldM (collect_edge h) (n_next nd) m.
(** tokenizer/src/dfa.rs:95-100 *)
Definition collect (h : list nnode) (cur : list nat) : res bmap := foldM (collect_node h) cur [].

(** align_by_begin, tokenizer/src/dfa.rs:218-239.  [cur] is entry [i] as left by the previous
    iteration; its ends beyond the next start are cut and carried into the next entry. *)
Fixpoint align (cur : N * emap) (rest : bmap) : bmap :=
  match rest with
  | [] => [cur]
  | (upper, nxt) :: rest' =>
      let greater := filter (fun kv => N.ltb upper (fst kv)) (snd cur) in
      let keep := filter (fun kv => negb (N.ltb upper (fst kv))) (snd cur) in
      match greater with
      | [] => cur :: align (upper, nxt) rest'
      | _ =>
          let limit := fold_left (fun s kv => ins_all (snd kv) s) greater [] in
          (fst cur, bupd upper [] (fun old => ins_all limit old) keep)
          :: align (upper, fold_left (fun m kv => bupd (fst kv) [] (fun old => ins_all (snd kv) old) m) greater nxt) rest'
      end
  end.
(** tokenizer/src/dfa.rs:218-239 *)
Definition align_by_begin (m : bmap) : bmap := match m with [] => [] | x :: r => align x r end.

(** split_by_end, tokenizer/src/dfa.rs:241-258: consecutive ranges, each with the union of
    the sets of all ends at or after its own. *)
Fixpoint split_ranges (b : N) (em : emap) : list (crange * list nat) * list nat :=
  match em with
  | [] => ([], [])
  | (e, s) :: em' =>
      let (rs, sum) := split_ranges e em' in
      let sum' := ins_all s sum in
      (((b, e), sum') :: rs, sum')
  end.
(** tokenizer/src/dfa.rs:241-258 *)
Definition split_by_end (m : bmap) : list (crange * list nat) :=
  concat (map (fun be => fst (split_ranges (fst be) (snd be))) m).

(** State of the work-list loop, tokenizer/src/dfa.rs:76-89: nodes with their transitions,
    the map from sets to positions, the queue, the processed positions. *)
Notation dnode := (list (crange * nat)) (only parsing).
(** tokenizer/src/dfa.rs:76-89 *)
Record dstate := mk_dstate { ds_nodes : list dnode; ds_ref : list (list nat * nat); ds_q : list (list nat); ds_done : list nat }.

(** node_ref[..], tokenizer/src/dfa.rs:92, 106 *)
Definition ref_of (refs : list (list nat * nat)) (s : list nat) : option nat := aget list_eqb s refs.

(** One transition of the current node, tokenizer/src/dfa.rs:104-117 *)
Definition add_target (cur : list nat) (st : dstate) (rn : crange * list nat) : res dstate :=
  let (range, next) := rn in
  let '(nodes, refs, i) :=
    match ref_of (ds_ref st) next with
    | Some i => (ds_nodes st, ds_ref st, i)
    | None => (ds_nodes st ++ [[]], aset list_eqb next (length (ds_nodes st)) (ds_ref st), length (ds_nodes st))
    end in
  do c <- of_opt (ref_of refs cur);
  Ok (mk_dstate (upd_nth c (rset range i) nodes) refs (ds_q st ++ [next]) (ds_done st)).

(** One iteration of the loop, tokenizer/src/dfa.rs:91-118 *)
Definition dfa_step (h : list nnode) (st : dstate) : dstate + res dstate :=
  match ds_q st with
  | [] => inr (Ok st)
  | cur :: q =>
      match ref_of (ds_ref st) cur with
      | None => inr Panic
      | Some c =>
          if mem c (ds_done st) then inl (mk_dstate (ds_nodes st) (ds_ref st) q (ds_done st))
          else
            let st1 := mk_dstate (ds_nodes st) (ds_ref st) q (ins c (ds_done st)) in
            match (do m <- collect h cur; foldM (add_target cur) (split_by_end (align_by_begin m)) st1) with
            | Ok st2 => inl st2
            | Panic => inr Panic
            | OutOfFuel => inr OutOfFuel
            end
      end
  end.

(** TokenizerDFA, tokenizer/src/dfa.rs:61-65 *)
Record dfa := mk_dfa { d_nodes : list dnode; d_begin : nat; d_end : list (nat * nat) }.

(** DFAConstructWarning::EndConflict(old, i), tokenizer/src/dfa.rs:67-70 *)
Definition end_conflict := (nat * nat)%type.

(** Accepting states and warnings, tokenizer/src/dfa.rs:119-127.  The patterns are visited
    from last to first, so the smallest index stays. *)
Definition mark_one (set : list nat) (index : nat) (a : list (nat * nat) * list end_conflict) (ei : nat * nat)
  : list (nat * nat) * list end_conflict :=
  if mem (fst ei) set then
    let w := match aget Nat.eqb index (fst a) with Some old => snd a ++ [(old, snd ei)] | None => snd a end in
    (aset Nat.eqb index (snd ei) (fst a), w)
  else a.
(** tokenizer/src/dfa.rs:120-126 *)
Definition mark_set (ends : list nat) (a : list (nat * nat) * list end_conflict) (r : list nat * nat)
  : list (nat * nat) * list end_conflict :=
  fold_left (mark_one (fst r) (snd r)) (rev (combine ends (seq 0 (length ends)))) a.
(** tokenizer/src/dfa.rs:119-127 *)
Definition mark_all (ends : list nat) (refs : list (list nat * nat)) : list (nat * nat) * list end_conflict :=
  fold_left (mark_set ends) refs ([], []).

(** From<TokenizerNFA> for (TokenizerDFA, Vec<DFAConstructWarning>), tokenizer/src/dfa.rs:72-130.
    [order] is the iteration order of the HashMap [node_ref] in the final loop. *)
Definition dfa_of (order : list (list nat * nat) -> list (list nat * nat)) (fuel : nat) (t : tnfa)
  : res (dfa * list end_conflict) :=
  do b <- eps_rec (tn_nodes t) (tn_begin t);
  do st <- loop (dfa_step (tn_nodes t)) fuel (mk_dstate [[]] [(b, 0)] [b] []);
  let (en, ws) := mark_all (tn_end t) (order (ds_ref st)) in
  Ok (mk_dfa (ds_nodes st) 0 en, ws).

(** The lookup in DFATokenizer::get_next_node, tokenizer/src/tokenizer.rs:66-69:
    the last entry whose start is at most [c], if [c] is before its end. *)
Definition next_back {V} (c : N) (m : list (crange * V)) : option (crange * V) :=
  fold_left (fun acc x => if N.leb (fst (fst x)) c then Some x else acc) m None.
(** tokenizer/src/tokenizer.rs:66-69 *)
Definition lookup {V} (c : N) (m : list (crange * V)) : option V :=
  match next_back c m with
  | Some (r, v) => if N.ltb c (snd r) then Some v else None
  | None => None
  end.
