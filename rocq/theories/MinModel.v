(** Model of TokenizerDFA::minify, tokenizer/src/dfa.rs:132-215.
    Node references are positions in the node vector; a HashMap from node references to
    group numbers is the list of group numbers in node order (every node has one). *)
From Verif Require Import Lib Hir NfaModel DfaModel.

(** BTreeMap<CharRange, usize>: a compressed transition table, used as a hash key *)
Notation ckey := (list (crange * nat)) (only parsing).

(** State of the loop in [compress_next]: prev_begin, prev_end, prev_group, compressed_next (tokenizer/src/dfa.rs:194-197) *)
Record cstate := mk_cstate { cs_begin : option N; cs_end : option N; cs_group : option nat; cs_out : ckey }.

(** tokenizer/src/dfa.rs:202, 211 *)
Definition flush (st : cstate) (g : nat) : res ckey :=
  do b <- of_opt (cs_begin st);
  do e <- of_opt (cs_end st);
  Ok (rset (b, e) g (cs_out st)).

(** Loop body, tokenizer/src/dfa.rs:198-209; [group_map[next]] panics if absent *)
Definition compress_step (g : list nat) (st : cstate) (rn : crange * nat) : res cstate :=
  let (range, next) := rn in
  do current <- of_opt (nth_error g next);
  do st1 <-
    match cs_group st with
    | Some prev =>
        if negb (Nat.eqb prev current) || negb (match cs_end st with Some e => N.eqb e (fst range) | None => false end)
        then do out <- flush st prev; Ok (mk_cstate None (cs_end st) (cs_group st) out)
        else Ok st
    | None => Ok st
    end;
  Ok (mk_cstate (match cs_begin st1 with Some b => Some b | None => Some (fst range) end)
                (Some (snd range)) (Some current) (cs_out st1)).

(** TokenizerDFA::compress_next, tokenizer/src/dfa.rs:193-214 *)
Definition compress (g : list nat) (nd : dnode) : res ckey :=
  do st <- foldM (compress_step g) nd (mk_cstate None None None []);
  match cs_group st with
  | Some prev => flush st prev
  | None => Ok (cs_out st)
  end.

(** TokenizerDFA::create_group_set, tokenizer/src/dfa.rs:182-191: the vector of groups *)
Definition group_sets (g : list nat) : list (list nat) :=
  match g with
  | [] => []
  | _ => map (fun k => filter (fun n => match nth_error g n with Some k' => Nat.eqb k' k | None => false end) (seq 0 (length g)))
             (seq 0 (S (list_max g)))
  end.

(** Equality of hash keys: CharRange compares the start only (tokenizer/src/lib.rs:40-44) *)
Fixpoint key_eq (k1 k2 : ckey) : bool :=
  match k1, k2 with
  | [], [] => true
  | (r1, v1) :: k1', (r2, v2) :: k2' => N.eqb (fst r1) (fst r2) && Nat.eqb v1 v2 && key_eq k1' k2'
  | _, _ => false
  end.

(** What the hash tables of one run decide.  CharRange hashes start and end, so two
    key_eq keys can have different hashes; whether looking up one finds the other
    depends on the seed: [o_probe iteration node wanted present].  The other fields are
    iteration orders. (tokenizer/src/dfa.rs:150-156, 174, 184) *)
Record hash_oracle := mk_oracle {
  o_set : nat -> nat -> list nat -> list nat;
  o_split : nat -> nat -> list (ckey * list nat) -> list (ckey * list nat);
  o_probe : nat -> nat -> ckey -> ckey -> bool;
  o_rep : nat -> list nat -> list nat
}.

(** split_group.entry(key).or_insert_with(HashSet::new).insert(node), dfa.rs:154 *)
Fixpoint add_split (probe : ckey -> ckey -> bool) (k : ckey) (n : nat) (l : list (ckey * list nat)) : list (ckey * list nat) :=
  match l with
  | [] => [(k, [n])]
  | (k', s) :: l' => if probe k k' && key_eq k k' then (k', ins n s) :: l' else (k', s) :: add_split probe k n l'
  end.

(** tokenizer/src/dfa.rs:151-155 *)
Definition split_one (o : hash_oracle) (it : nat) (nodes : list dnode) (g : list nat)
           (sp : list (ckey * list nat)) (n : nat) : res (list (ckey * list nat)) :=
  do nd <- of_opt (nth_error nodes n);
  do k <- compress g nd;
  Ok (add_split (o_probe o it n) k n sp).
(** tokenizer/src/dfa.rs:149-154 *)
Definition split_set (o : hash_oracle) (it gi : nat) (nodes : list dnode) (g : list nat) (set : list nat) :=
  foldM (split_one o it nodes g) (o_set o it gi set) [].

(** One class gets the next number, tokenizer/src/dfa.rs:157-162 *)
Definition label_one (st : list nat * nat) (s : list nat) : list nat * nat :=
  (fold_left (fun new n => upd_nth n (fun _ => snd st) new) s (fst st), S (snd st)).

(** One group, tokenizer/src/dfa.rs:149-163; state: new_group_map, max_index, updated *)
Definition group_step (o : hash_oracle) (it : nat) (nodes : list dnode) (g : list nat)
           (st : list nat * nat * bool) (x : nat * list nat) : res (list nat * nat * bool) :=
  let '(new, mx, upd) := st in
  do sp <- split_set o it (fst x) nodes g (snd x);
  let '(new', mx') := fold_left label_one (map snd (o_split o it (fst x) sp)) (new, mx) in
  Ok (new', mx', upd || Nat.ltb 1 (length sp)).

(** group_map, new_group_map and the number of the iteration (tokenizer/src/dfa.rs:134-147) *)
Record mstate := mk_mstate { ms_it : nat; ms_g : list nat; ms_new : list nat }.

(** One iteration of the refinement loop, tokenizer/src/dfa.rs:145-168 *)
Definition min_step (o : hash_oracle) (nodes : list dnode) (st : mstate) : mstate + res (list nat) :=
  let sets := group_sets (ms_g st) in
  match foldM (group_step o (ms_it st) nodes (ms_g st)) (combine (seq 0 (length sets)) sets) (ms_new st, 0, false) with
  | Ok (new, _, upd) => if upd then inl (mk_mstate (S (ms_it st)) new (ms_g st)) else inr (Ok new)
  | Panic => inr Panic
  | OutOfFuel => inr OutOfFuel
  end.

(** Initial groups, tokenizer/src/dfa.rs:134-143 *)
Definition init_groups (d : dfa) : list nat :=
  map (fun n => match aget Nat.eqb n (d_end d) with Some i => S i | None => 0 end) (seq 0 (length (d_nodes d))).

(** One node of the result, tokenizer/src/dfa.rs:174-177; [node[v]] must exist *)
Definition min_node (o : hash_oracle) (nodes : list dnode) (g : list nat) (count : nat) (x : nat * list nat) : res dnode :=
  do r <- of_opt (hd_error (o_rep o (fst x) (snd x)));
  do nd <- of_opt (nth_error nodes r);
  do k <- compress g nd;
  mapM (fun kv => if Nat.ltb (snd kv) count then Ok kv else Panic) k.

(** node[group] for an old node, tokenizer/src/dfa.rs:178-179 *)
Definition new_ref (g : list nat) (count n : nat) : res nat :=
  do k <- of_opt (nth_error g n);
  if Nat.ltb k count then Ok k else Panic.

(** TokenizerDFA::minify, tokenizer/src/dfa.rs:133-180.  The refinement loop gets one
    iteration per node plus one; MinProofs shows that it never runs out. *)
Definition minify (o : hash_oracle) (d : dfa) : res dfa :=
  let g0 := init_groups d in
  do g <- loop (min_step o (d_nodes d)) (S (length (d_nodes d))) (mk_mstate 0 g0 g0);
  let sets := group_sets g in
  do nodes' <- mapM (min_node o (d_nodes d) g (length sets)) (combine (seq 0 (length sets)) sets);
  do b <- new_ref g (length sets) (d_begin d);
  do en <- foldM (fun en kv => do k <- new_ref g (length sets) (fst kv); Ok (aset Nat.eqb k (snd kv) en)) (d_end d) [];
  Ok (mk_dfa nodes' b en).

(** Hash tables behave: iteration orders are permutations, a present key is found, and
    (honest) a different key is not taken for it. (tokenizer/src/dfa.rs:150-156, 174, 184) *)
Record oracle_ok (o : hash_oracle) : Prop := {
  oo_set : forall it gi l, Permutation (o_set o it gi l) l;
  oo_split : forall it gi l, Permutation (o_split o it gi l) l;
  oo_probe : forall it n k, o_probe o it n k k = true;
  oo_rep : forall i l, Permutation (o_rep o i l) l
}.
(** tokenizer/src/dfa.rs:153 *)
Definition honest (o : hash_oracle) : Prop :=
  forall it n k k', o_probe o it n k k' = true -> key_eq k k' = true -> k = k'.
