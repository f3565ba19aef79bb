(** Model of the boxes and raw pointers of tokenizer/src/nfa.rs, dfa.rs and tokenizer.rs.

    [NfaModel.v], [DfaModel.v], [MinModel.v] and [TokModel.v] take a TokenizerNFANodeRef or TokenizerDFANodeRef as a position in a
    vector.  Here it is the address of a box.  The allocator returns any address that is not in use.  Every [deref] (nfa.rs:36-38,
    dfa.rs:23-25, both [unsafe]) reads the memory and finds [XDangling] if there is no box.  The vectors of boxes are dropped where
    the compiler drops them.  Sets and maps of pointers are kept by address and iterated in any order.

    Simplifications: the intermediate NFAs are those of [NfaModel.v] (their memory is modelled in [MemModel.v], C83).  The two kinds
    of boxes share the addresses but a pointer to one kind is never used for the other (that is Rust's typing), so the memory
    has a part for each.  A HashMap or HashSet that is iterated more than once without a change in between has the same order
    each time.  The map [end] is iterated in the order of insertion, as in [MinModel.v] and [TokModel.v]. *)
From Verif Require Import Lib Hir NfaModel DfaModel MinModel TokModel.

(** live boxes of TokenizerNFANodes and of TokenizerDFANodes (with the addresses their edges lead to) (tokenizer/src/nfa.rs:67-71, tokenizer/src/dfa.rs:42-45) *)
Record boxes := mk_boxes { bx_nfa : list (nat * nnode); bx_dfa : list (nat * dnode); bx_clock : nat }.

(** A value, an NFAConstructError, access to a box that is not there, a panic, or still running (the results of tokenizer/src/tokenizer.rs:106-112) *)
Inductive xres (A : Type) := XOk (a : A) (m : boxes) | XErr (e : nerr) (m : boxes) | XDangling | XPanic | XFuel.
Arguments XOk {A} a m. Arguments XErr {A} e m. Arguments XDangling {A}. Arguments XPanic {A}. Arguments XFuel {A}.
(** effects on the memory; the functions of tokenizer/src/nfa.rs:135-174 and tokenizer/src/dfa.rs:72-215 *)
Definition X (A : Type) := boxes -> xres A.
(** return, as in tokenizer/src/nfa.rs:172 *)
Definition xret {A} (a : A) : X A := fun m => XOk a m.
(** `;` and `?`, as in tokenizer/src/nfa.rs:144 *)
Definition xbind {A B} (x : X A) (f : A -> X B) : X B := fun m =>
  match x m with XOk a m' => f a m' | XErr e m' => XErr e m' | XDangling => XDangling | XPanic => XPanic | XFuel => XFuel end.
Notation "'xdo' x <- a ; b" := (xbind a (fun x => b)) (at level 100, x pattern, a at level 99, b at level 100, right associativity).
(** indexing, lookups with [\[..\]], unwrap (tokenizer/src/nfa.rs:151-152, tokenizer/src/dfa.rs:107, 116, 177) *)
Definition xopt {A} (o : option A) : X A := fun m => match o with Some a => XOk a m | None => XPanic end.
(** tokenizer/src/nfa.rs:144 *)
Definition xlift {A} (r : nres A) : X A := fun m => match r with NOk a => XOk a m | NErr e => XErr e m | NPanic => XPanic end.
(** tokenizer/src/dfa.rs:152 *)
Definition xpure {A} (r : res A) : X A := fun m => match r with Ok a => XOk a m | Panic => XPanic | OutOfFuel => XFuel end.
(** `iter().map(..).collect()`, as in tokenizer/src/nfa.rs:150 *)
Fixpoint xmap {A B} (f : A -> X B) (l : list A) : X (list B) :=
  match l with [] => xret [] | a :: l' => xdo b <- f a; xdo bs <- xmap f l'; xret (b :: bs) end.
(** a `for` loop, as in tokenizer/src/dfa.rs:105-117 *)
Fixpoint xfold {A S} (f : S -> A -> X S) (l : list A) (s : S) : X S :=
  match l with [] => xret s | a :: l' => xdo s' <- f s a; xfold f l' s' end.
(** `while let`, `loop`, as in tokenizer/src/dfa.rs:91 and 144 *)
Fixpoint xwhile {S A} (step : S -> X (S + A)) (fuel : nat) (s : S) : X A :=
  match fuel with O => fun _ => XFuel | Datatypes.S k => xdo r <- step s; match r with inl s' => xwhile step k s' | inr a => xret a end end.

(** the addresses of the boxes of tokenizer/src/nfa.rs:101 and tokenizer/src/dfa.rs:62 *)
Definition used (m : boxes) : list nat := map fst (bx_nfa m) ++ map fst (bx_dfa m).

(** What the allocator and the hash tables decide (tokenizer/src/nfa.rs:90, tokenizer/src/dfa.rs:98, 119, 150-156, 174, 184) *)
Record box_env := mk_box_env {
  ev_alloc : nat -> list nat -> nat;
  (** iteration of the HashSet [epsilon] of the node at an address, or of the one in its [next] map under a range *)
  ev_edges : nat -> option crange -> list nat -> list nat;
  (** iteration of node_ref, dfa.rs:119 *)
  ev_order : list (list nat * nat) -> list (list nat * nat);
  (** iterations of the maps of minify: group_map in create_group_set, the sets, split_group; lookups of split_group; the first of a set *)
  ev_groups : nat -> list (nat * nat) -> list (nat * nat);
  ev_min : hash_oracle
}.

Section Env.
  Variable ev : box_env.

  (** Box::pin(..default()), an access through a box, the drop of a box (tokenizer/src/nfa.rs:140, 150) *)
  Definition new_n : X nat := fun m =>
    let a := ev_alloc ev (bx_clock m) (used m) in XOk a (mk_boxes ((a, nnode_default) :: bx_nfa m) (bx_dfa m) (S (bx_clock m))).
  (** tokenizer/src/dfa.rs:80, 110, 171 *)
  Definition new_d : X nat := fun m =>
    let a := ev_alloc ev (bx_clock m) (used m) in XOk a (mk_boxes (bx_nfa m) ((a, []) :: bx_dfa m) (S (bx_clock m))).
  (** tokenizer/src/nfa.rs:152-168 *)
  Definition write_n (a : nat) (f : nnode -> nnode) : X unit := fun m =>
    match aget Nat.eqb a (bx_nfa m) with Some nd => XOk tt (mk_boxes (aset Nat.eqb a (f nd) (bx_nfa m)) (bx_dfa m) (bx_clock m)) | None => XDangling end.
  (** tokenizer/src/dfa.rs:116, 175 *)
  Definition write_d (a : nat) (f : dnode -> dnode) : X unit := fun m =>
    match aget Nat.eqb a (bx_dfa m) with Some nd => XOk tt (mk_boxes (bx_nfa m) (aset Nat.eqb a (f nd) (bx_dfa m)) (bx_clock m)) | None => XDangling end.
  (** tokenizer/src/dfa.rs:23-25 *)
  Definition read_d (a : nat) : X dnode := fun m => match aget Nat.eqb a (bx_dfa m) with Some nd => XOk nd m | None => XDangling end.
  (** the memory without a box, tokenizer/src/dfa.rs:62 *)
  Definition without {V} (a : nat) (l : list (nat * V)) : list (nat * V) := filter (fun x => negb (Nat.eqb a (fst x))) l.
  (** the drop of a box of tokenizer/src/nfa.rs:101 *)
  Definition free_n (a : nat) : X unit := fun m =>
    match aget Nat.eqb a (bx_nfa m) with Some _ => XOk tt (mk_boxes (without a (bx_nfa m)) (bx_dfa m) (bx_clock m)) | None => XDangling end.
  (** the drop of a box of tokenizer/src/dfa.rs:62 *)
  Definition free_d (a : nat) : X unit := fun m =>
    match aget Nat.eqb a (bx_dfa m) with Some _ => XOk tt (mk_boxes (bx_nfa m) (without a (bx_dfa m)) (bx_clock m)) | None => XDangling end.
  (** a `for` loop, as in tokenizer/src/dfa.rs:173-176 *)
  Definition xiter {A} (f : A -> X unit) (l : list A) : X unit := xdo _ <- xmap f l; xret tt.

  (** ** TokenizerNFA, tokenizer/src/nfa.rs:99-104 *)
  Record bnfa := mk_bnfa { bn_vec : list nat; bn_begin : nat; bn_ends : list nat }.

  (** The loop tokenizer/src/nfa.rs:143-169; [begin] is a box of its own until the end.  An error drops the boxes. *)
  Fixpoint x_loop (ps : list hir) (vec : list nat) (begin : nat) (ends : list nat) : X (list nat * list nat) :=
    match ps with
    | [] => xret (vec, ends)
    | p :: ps' =>
        match nfa_of p [] with
        | NErr e => xdo _ <- xiter free_n (vec ++ [begin]); xlift (NErr e)
        | NPanic => xlift NPanic
        | NOk (h, n) =>
            xdo news <- xmap (fun _ => new_n) (nfa_nodes n);
            let f q := match pos_of (nfa_nodes n) q with Some i => nth_error (vec ++ news) (length vec + i) | None => None end in
            xdo e <- xopt (f (nfa_end n));
            xdo b <- xopt (f (nfa_begin n));
            xdo _ <- write_n begin (fun nd => mk_nnode (ins b (n_eps nd)) (n_next nd));
            xdo _ <- xiter (fun x => xdo nd <- xopt (nth_error h (snd x)); xdo nd' <- xlift (copy_node f nd); write_n (fst x) (fun _ => nd')) (combine news (nfa_nodes n));
            x_loop ps' (vec ++ news) begin (ends ++ [e])
        end
    end.
  (** TryFrom<Vec<Hir>> for TokenizerNFA, tokenizer/src/nfa.rs:135-174 *)
  Definition x_tnfa_of (ps : list hir) : X bnfa :=
    xdo begin <- new_n;
    xdo (vec, ends) <- x_loop ps [] begin [];
    xret (mk_bnfa (vec ++ [begin]) begin ends).

  (** ** From<TokenizerNFA>, tokenizer/src/dfa.rs:72-130 *)
  (** epsilon_recursive, nfa.rs:82-96, and the loop dfa.rs:94-99 with [*] of a pointer as a parameter *)
  Definition eps_at (deref : nat -> option nnode) (s : list nat * list nat) : (list nat * list nat) + res (list nat) :=
    match fst s with
    | [] => inr (Ok (snd s))
    | a :: q =>
        if mem a (snd s) then inl (q, snd s)
        else match deref a with
             | None => inr Panic
             | Some nd => inl (q ++ ev_edges ev a None (n_eps nd), ins a (snd s))
             end
    end.
  (** tokenizer/src/nfa.rs:82-96 *)
  Definition eps_rec_at deref fuel a : res (list nat) := loop (eps_at deref) fuel ([a], []).
  (** tokenizer/src/dfa.rs:97-99 *)
  Definition collect_edge_at deref fuel (a : nat) (m : bmap) (e : crange * list nat) : res bmap :=
    do ss <- mapM (eps_rec_at deref fuel) (ev_edges ev a (Some (fst e)) (snd e));
    Ok (add_edge (fst e) (to_set (concat ss)) m).
  (** tokenizer/src/dfa.rs:96-100 *)
  Definition collect_node_at deref fuel (m : bmap) (a : nat) : res bmap :=
    do nd <- of_opt (deref a);
    foldM (collect_edge_at deref fuel a) (n_next nd) m.
  (** tokenizer/src/dfa.rs:95-100 *)
  Definition collect_at deref fuel (cur : list nat) : res bmap := foldM (collect_node_at deref fuel) cur [].

  (** the only failures of [eps_rec_at] and [collect_at] are pointers without a box (tokenizer/src/nfa.rs:36-38) *)
  Definition deref_n (m : boxes) (a : nat) : option nnode := aget Nat.eqb a (bx_nfa m).
  (** tokenizer/src/nfa.rs:36-38 *)
  Definition x_deref {A} (f : (nat -> option nnode) -> res A) : X A := fun m =>
    match f (deref_n m) with Ok a => XOk a m | Panic => XDangling | OutOfFuel => XFuel end.

  (** the vector of boxes, node_ref, q, processed (tokenizer/src/dfa.rs:76-89) *)
  Record bstate := mk_bstate { bs_vec : list nat; bs_ref : list (list nat * nat); bs_q : list (list nat); bs_done : list nat }.
  (** dfa.rs:104-117 *)
  Definition x_target (cur : list nat) (st : bstate) (rn : crange * list nat) : X bstate :=
    let (range, next) := rn in
    xdo (vec, refs, a) <-
      match ref_of (bs_ref st) next with
      | Some i => xdo a <- xopt (nth_error (bs_vec st) i); xret (bs_vec st, bs_ref st, a)
      | None => xdo a <- new_d; xret (bs_vec st ++ [a], aset list_eqb next (length (bs_vec st)) (bs_ref st), a)
      end;
    xdo c <- xopt (ref_of refs cur);
    xdo b <- xopt (nth_error vec c);
    xdo _ <- write_d b (rset range a);
    xret (mk_bstate vec refs (bs_q st ++ [next]) (bs_done st)).
  (** dfa.rs:91-118 *)
  Definition x_step (fuel : nat) (st : bstate) : X (bstate + bstate) :=
    match bs_q st with
    | [] => xret (inr st)
    | cur :: q =>
        xdo c <- xopt (ref_of (bs_ref st) cur);
        if mem c (bs_done st) then xret (inl (mk_bstate (bs_vec st) (bs_ref st) q (bs_done st)))
        else
          xdo m <- x_deref (fun deref => collect_at deref fuel cur);
          xdo st2 <- xfold (x_target cur) (split_by_end (align_by_begin m)) (mk_bstate (bs_vec st) (bs_ref st) q (ins c (bs_done st)));
          xret (inl st2)
    end.
  (** TokenizerDFA, dfa.rs:61-65 *)
  Record bdfa := mk_bdfa { bd_vec : list nat; bd_begin : nat; bd_end : list (nat * nat) }.
  (** dfa.rs:119-127: [end] is keyed by pointers *)
  Definition x_mark (vec ends : list nat) (acc : list (nat * nat) * list end_conflict) (r : list nat * nat) : X (list (nat * nat) * list end_conflict) :=
    xdo a <- xopt (nth_error vec (snd r)); xret (mark_set ends acc (fst r, a)).
  (** tokenizer/src/dfa.rs:72-130 *)
  Definition x_dfa_of (fuel : nat) (t : bnfa) : X (bdfa * list end_conflict) :=
    xdo begin <- new_d;
    xdo b <- x_deref (fun deref => eps_rec_at deref fuel (bn_begin t));
    xdo st <- xwhile (x_step fuel) fuel (mk_bstate [begin] [(b, 0)] [b] []);
    xdo (en, ws) <- xfold (x_mark (bs_vec st) (bn_ends t)) (ev_order ev (bs_ref st)) ([], []);
    (** nfa is dropped *)
    xdo _ <- xiter free_n (bn_vec t);
    xret (mk_bdfa (bs_vec st) begin en, ws).

  (** ** TokenizerDFA::minify, dfa.rs:132-215 *)
  (** create_group_set, dfa.rs:182-191 *)
  Definition put_group (gs : list (list nat)) (x : nat * nat) : list (list nat) :=
    upd_nth (snd x) (ins (fst x)) (gs ++ repeat [] (S (snd x) - length gs)).
  (** tokenizer/src/dfa.rs:182-191 *)
  Definition x_sets (gm : list (nat * nat)) : list (list nat) := fold_left put_group gm [].
  (** compress_next, dfa.rs:193-214 *)
  Definition compress_step_at (gm : list (nat * nat)) (st : cstate) (rn : crange * nat) : res cstate :=
    let (range, next) := rn in
    do current <- of_opt (aget Nat.eqb next gm);
    do st1 <-
      match cs_group st with
      | Some prev =>
          if negb (Nat.eqb prev current) || negb (match cs_end st with Some e => N.eqb e (fst range) | None => false end)
          then do out <- flush st prev; Ok (mk_cstate None (cs_end st) (cs_group st) out)
          else Ok st
      | None => Ok st
      end;
    Ok (mk_cstate (match cs_begin st1 with Some b => Some b | None => Some (fst range) end)
                  (Some (snd range)) (Some current) (cs_out st1)).
  (** tokenizer/src/dfa.rs:193-214 *)
  Definition compress_at (gm : list (nat * nat)) (nd : dnode) : res (list (crange * nat)) :=
    do st <- foldM (compress_step_at gm) nd (mk_cstate None None None []);
    match cs_group st with
    | Some prev => flush st prev
    | None => Ok (cs_out st)
    end.
  (** dfa.rs:151-155: the pointer is followed *)
  Definition x_split_one (it : nat) (gm : list (nat * nat)) (sp : list (list (crange * nat) * list nat)) (a : nat) : X (list (list (crange * nat) * list nat)) :=
    xdo nd <- read_d a;
    xdo k <- xpure (compress_at gm nd);
    xret (add_split (o_probe (ev_min ev) it a) k a sp).
  (** tokenizer/src/dfa.rs:149-154 *)
  Definition x_split_set (it gi : nat) (gm : list (nat * nat)) (set : list nat) :=
    xfold (x_split_one it gm) (o_set (ev_min ev) it gi set) [].
  (** dfa.rs:157-162 *)
  Definition x_label (st : list (nat * nat) * nat) (s : list nat) : list (nat * nat) * nat :=
    (fold_left (fun new a => aset Nat.eqb a (snd st) new) s (fst st), S (snd st)).
  (** dfa.rs:149-163 *)
  Definition x_group_step (it : nat) (gm : list (nat * nat)) (st : list (nat * nat) * nat * bool) (x : nat * list nat) : X (list (nat * nat) * nat * bool) :=
    let '(new, mx, upd) := st in
    xdo sp <- x_split_set it (fst x) gm (snd x);
    let '(new', mx') := fold_left x_label (map snd (o_split (ev_min ev) it (fst x) sp)) (new, mx) in
    xret (new', mx', upd || Nat.ltb 1 (length sp)).
  (** dfa.rs:145-168 *)
  Definition x_min_step (st : nat * list (nat * nat) * list (nat * nat)) : X ((nat * list (nat * nat) * list (nat * nat)) + list (nat * nat)) :=
    let '(it, gm, new) := st in
    let sets := x_sets (ev_groups ev it gm) in
    xdo (new', _, upd) <- xfold (x_group_step it gm) (combine (seq 0 (length sets)) sets) (new, 0, false);
    xret (if upd then inl (S it, new', gm) else inr new').
  (** dfa.rs:174-177 *)
  Definition x_min_node (vec2 : list nat) (gm : list (nat * nat)) (x : nat * list nat) : X unit :=
    xdo r <- xopt (hd_error (o_rep (ev_min ev) (fst x) (snd x)));
    xdo nd <- read_d r;
    xdo k <- xpure (compress_at gm nd);
    xdo nd' <- xmap (fun kv => xdo a <- xopt (nth_error vec2 (snd kv)); xret (fst kv, a)) k;
    xdo b <- xopt (nth_error vec2 (fst x));
    write_d b (fun _ => nd').
  (** node[group_map[&p]].reference(), dfa.rs:178-179 *)
  Definition x_new_ref (vec2 : list nat) (gm : list (nat * nat)) (a : nat) : X nat :=
    xdo k <- xopt (aget Nat.eqb a gm); xopt (nth_error vec2 k).
  (** tokenizer/src/dfa.rs:133-180 *)
  Definition x_minify (d : bdfa) : X bdfa :=
    let g0 := map (fun a => (a, match aget Nat.eqb a (bd_end d) with Some i => S i | None => 0 end)) (bd_vec d) in
    xdo gm <- xwhile x_min_step (S (length (bd_vec d))) (0, g0, g0);
    let sets := x_sets (ev_groups ev 0 gm) in
    xdo vec2 <- xmap (fun _ => new_d) sets;
    xdo _ <- xiter (x_min_node vec2 gm) (combine (seq 0 (length sets)) sets);
    xdo b <- x_new_ref vec2 gm (bd_begin d);
    xdo en <- xfold (fun en kv => xdo a <- x_new_ref vec2 gm (fst kv); xret (aset Nat.eqb a (snd kv) en)) (bd_end d) [];
    (** self is dropped *)
    xdo _ <- xiter free_d (bd_vec d);
    xret (mk_bdfa vec2 b en).

  (** ** DFATokenizer::new, tokenizer.rs:54-60 *)
  Definition x_tok_new {E T} (d : bdfa) (makers : list (list N -> list T -> E)) : X (tokenizer E T) :=
    let index_map := combine (bd_vec d) (seq 0 (length (bd_vec d))) in
    xdo goto <- xmap (fun a => xdo nd <- read_d a; xmap (fun kv => xdo j <- xopt (aget Nat.eqb (snd kv) index_map); xret (fst kv, j)) nd) (bd_vec d);
    xdo b <- xopt (aget Nat.eqb (bd_begin d) index_map);
    xdo en <- xfold (fun en kv => xdo j <- xopt (aget Nat.eqb (fst kv) index_map); xret (aset Nat.eqb j (snd kv) en)) (bd_end d) [];
    (** dfa is dropped *)
    xdo _ <- xiter free_d (bd_vec d);
    xret (mk_tok goto b en makers).

  (** TokenizerBuilder::build, tokenizer.rs:105-112, after the parsing of the patterns *)
  Definition x_build {E T} (fuel : nat) (hirs : list hir) (makers : list (list N -> list T -> E)) : X (tokenizer E T * list end_conflict) :=
    xdo nfa <- x_tnfa_of hirs;
    xdo (d, ws) <- x_dfa_of fuel nfa;
    xdo d' <- x_minify d;
    xdo t <- x_tok_new d' makers;
    xret (t, ws).
End Env.
