(** Model of tokenizer/src/nfa.rs: construction of an NFA from a regular expression.
    Reference-counted, lock-protected nodes are cells of a heap (a list of nodes); a
    pointer is an index.  [HashSet]s of edges are sorted lists of pointers: no loop that
    iterates over one of them in this file depends on the iteration order.
    Dropping memory, locks and reference counts are in [MemModel.v]; lock poisoning is not modelled. *)
From Verif Require Import Lib Hir.

(** CharRange (tokenizer/src/lib.rs:14-17): half-open range [start, end). *)
Notation crange := (N * N)%type (only parsing).

(** BTreeMap<CharRange, V>::insert.  The order and equality of CharRange look at the start
    only (tokenizer/src/lib.rs:40-56): an existing entry with the same start keeps its key,
    hence its end, and gets the new value. *)
Fixpoint rset {V} (r : crange) (v : V) (m : list (crange * V)) : list (crange * V) :=
  match m with
  | [] => [(r, v)]
  | (r', v') :: m' =>
      match N.compare (fst r) (fst r') with
      | Lt => (r, v) :: m
      | Eq => (r', v) :: m'
      | Gt => (r', v') :: rset r v m'
      end
  end.

(** NFANode, tokenizer/src/nfa.rs:199-203 *)
Record nnode := mk_nnode { n_eps : list nat; n_next : list (crange * list nat) }.
(** tokenizer/src/nfa.rs:67, 199 (derived Default) *)
Definition nnode_default : nnode := mk_nnode [] [].
(** the nodes of tokenizer/src/nfa.rs:199-203 *)
Definition heap := list nnode.

(** NFA, tokenizer/src/nfa.rs:205-209 *)
Record nfa := mk_nfa { nfa_nodes : list nat; nfa_begin : nat; nfa_end : nat }.

(** Result<_, NFAConstructError>, or a panic (tokenizer/src/nfa.rs:235-246) *)
Inductive nres (A : Type) := NOk (a : A) | NErr (e : nerr) | NPanic.
Arguments NOk {A} a. Arguments NErr {A} e. Arguments NPanic {A}.
(** `?`, as in tokenizer/src/nfa.rs:284 *)
Definition nbind {A B} (x : nres A) (f : A -> nres B) : nres B :=
  match x with NOk a => f a | NErr e => NErr e | NPanic => NPanic end.
Notation "'ndo' x <- a ; b" := (nbind a (fun x => b)) (at level 200, x pattern, a at level 100, b at level 200).
(** an indexing that may panic, as in tokenizer/src/nfa.rs:218 *)
Definition n_of_opt {A} (o : option A) : nres A := match o with Some a => NOk a | None => NPanic end.

(** Arc::new: a fresh cell (tokenizer/src/nfa.rs:214) *)
Definition alloc (h : heap) (n : nnode) : heap * nat := (h ++ [n], length h).
(** p.write().unwrap().epsilon.insert(q) (tokenizer/src/nfa.rs:287) *)
Definition add_eps (h : heap) (p q : nat) : heap :=
  upd_nth p (fun n => mk_nnode (ins q (n_eps n)) (n_next n)) h.

(** HashMap from pointers to positions in [nodes] (tokenizer/src/nfa.rs:213 and 147-149) and
    the panicking lookup [map[..]]. *)
Definition pos_of (nodes : list nat) (p : nat) : option nat := index_of Nat.eqb p nodes.

(** `iter().map(..).collect()`, as in tokenizer/src/nfa.rs:218 *)
Fixpoint nmapM {A B} (f : A -> nres B) (l : list A) : nres (list B) :=
  match l with
  | [] => NOk []
  | a :: l' => ndo b <- f a; ndo bs <- nmapM f l'; NOk (b :: bs)
  end.

(** The copy of one node during [clone] (tokenizer/src/nfa.rs:215-220), edges redirected by [f]. *)
Definition copy_node (f : nat -> option nat) (n : nnode) : nres nnode :=
  ndo e <- nmapM (fun p => n_of_opt (f p)) (n_eps n);
  ndo nx <- nmapM (fun kv => ndo v <- nmapM (fun p => n_of_opt (f p)) (snd kv); NOk (fst kv, to_set v)) (n_next n);
  NOk (mk_nnode (to_set e) nx).

(** NFA::clone, tokenizer/src/nfa.rs:211-225: fresh nodes at the end of the heap *)
Definition clone (h : heap) (n : nfa) : nres (heap * nfa) :=
  let f p := option_map (fun i => length h + i) (pos_of (nfa_nodes n) p) in
  ndo olds <- nmapM (fun p => n_of_opt (nth_error h p)) (nfa_nodes n);
  ndo news <- nmapM (copy_node f) olds;
  ndo b <- n_of_opt (f (nfa_begin n));
  ndo e <- n_of_opt (f (nfa_end n));
  NOk (h ++ news, mk_nfa (seq (length h) (length (nfa_nodes n))) b e).

(** The loop [for _ in 0..k] appending clones of [inner] after [end]
    (tokenizer/src/nfa.rs:308-313, 328-333, 374-379, 387-392). *)
Fixpoint chain (k : nat) (inner : nfa) (h : heap) (nodes : list nat) (e : nat) : nres (heap * list nat * nat) :=
  match k with
  | 0 => NOk (h, nodes, e)
  | S k' =>
      ndo (h1, c) <- clone h inner;
      chain k' inner (add_eps h1 e (nfa_begin c)) (nodes ++ nfa_nodes c) (nfa_end c)
  end.

(** The same loop with an extra epsilon edge to the final end
    (tokenizer/src/nfa.rs:353-361, 393-401). *)
Fixpoint chain_skip (k : nat) (inner : nfa) (h : heap) (nodes : list nat) (e : nat) : nres (heap * list nat * nat) :=
  match k with
  | 0 => NOk (h, nodes, e)
  | S k' =>
      ndo (h1, c) <- clone h inner;
      chain_skip k' inner (add_eps (add_eps h1 e (nfa_begin c)) e (nfa_end inner))
                 (nodes ++ nfa_nodes c) (nfa_end c)
  end.

(** ZeroOrOne / Bounded(0,1), tokenizer/src/nfa.rs:286-289, 347-350 *)
Definition mk_opt (h : heap) (i : nfa) : heap * nfa := (add_eps h (nfa_begin i) (nfa_end i), i).
(** ZeroOrMore / AtLeast(0), tokenizer/src/nfa.rs:290-294, 321-325 *)
Definition mk_star (h : heap) (i : nfa) : heap * nfa :=
  (add_eps h (nfa_end i) (nfa_begin i), mk_nfa (nfa_nodes i) (nfa_begin i) (nfa_begin i)).
(** OneOrMore, tokenizer/src/nfa.rs:295-298 *)
Definition mk_plus (h : heap) (i : nfa) : heap * nfa := (add_eps h (nfa_end i) (nfa_begin i), i).
(** Exactly(0) / Bounded(0,0), tokenizer/src/nfa.rs:301-304, 343-346 *)
Definition mk_zero (h : heap) : heap * nfa :=
  let (h1, p) := alloc h nnode_default in (h1, mk_nfa [p] p p).
(** Exactly(n) and Bounded(n,n) for n >= 2, tokenizer/src/nfa.rs:306-318, 372-384 *)
Definition mk_exactly (n : nat) (h : heap) (i : nfa) : nres (heap * nfa) :=
  ndo (h1, c) <- clone h i;
  ndo (h2, nodes, e) <- chain (n - 2) i h1 (nfa_nodes c) (nfa_end c);
  NOk (add_eps h2 e (nfa_begin i), mk_nfa (nodes ++ nfa_nodes i) (nfa_begin c) (nfa_end i)).
(** AtLeast(n) for n >= 1, tokenizer/src/nfa.rs:326-340 *)
Definition mk_at_least (n : nat) (h : heap) (i : nfa) : nres (heap * nfa) :=
  ndo (h1, c) <- clone h i;
  ndo (h2, nodes, e) <- chain (n - 1) i h1 (nfa_nodes c) (nfa_end c);
  NOk (add_eps (add_eps h2 e (nfa_begin i)) (nfa_end i) (nfa_begin i),
       mk_nfa (nodes ++ nfa_nodes i) (nfa_begin c) (nfa_begin i)).
(** Bounded(0,m) for m >= 2, tokenizer/src/nfa.rs:351-370 *)
Definition mk_bounded0 (m : nat) (h : heap) (i : nfa) : nres (heap * nfa) :=
  ndo (h1, c) <- clone h i;
  ndo (h2, nodes, e) <- chain_skip (m - 2) i h1 (nfa_nodes c) (nfa_end c);
  let h3 := add_eps (add_eps h2 e (nfa_begin i)) e (nfa_end i) in
  NOk (add_eps h3 (nfa_begin c) (nfa_end i), mk_nfa (nodes ++ nfa_nodes i) (nfa_begin c) (nfa_end i)).
(** Bounded(n,m) for 1 <= n < m, tokenizer/src/nfa.rs:385-409 *)
Definition mk_bounded (n m : nat) (h : heap) (i : nfa) : nres (heap * nfa) :=
  ndo (h1, c) <- clone h i;
  ndo (h2, nodes, e) <- chain (n - 1) i h1 (nfa_nodes c) (nfa_end c);
  ndo (h3, nodes', e') <- chain_skip (m - n - 1) i h2 nodes e;
  let h4 := add_eps (add_eps h3 e' (nfa_begin i)) e' (nfa_end i) in
  NOk (h4, mk_nfa (nodes' ++ nfa_nodes i) (nfa_begin c) (nfa_end i)).

(** The match on the repetition kind, tokenizer/src/nfa.rs:285-413, in the order of its arms *)
Definition mk_rep (k : rep) (h : heap) (i : nfa) : nres (heap * nfa) :=
  match k with
  | RZeroOrOne => NOk (mk_opt h i)
  | RZeroOrMore => NOk (mk_star h i)
  | ROneOrMore => NOk (mk_plus h i)
  | RExactly n =>
      match n with 0 => NOk (mk_zero h) | 1 => NOk (h, i) | _ => mk_exactly n h i end
  | RAtLeast n =>
      match n with 0 => NOk (mk_star h i) | _ => mk_at_least n h i end
  | RBounded n m =>
      match n, m with
      | 0, 0 => NOk (mk_zero h)
      | 0, 1 => NOk (mk_opt h i)
      | 0, _ => mk_bounded0 m h i
      | 1, 1 => NOk (h, i)
      | _, _ => if Nat.eqb n m then mk_exactly n h i
                else if Nat.ltb n m then mk_bounded n m h i
                else NPanic (* unreachable!(), tokenizer/src/nfa.rs:410 *)
      end
  end.

(** TryFrom<HirKind> for NFA, tokenizer/src/nfa.rs:243-444.
    Concat pops the vector from the back, so the last expression is built first. *)
Fixpoint nfa_of (k : hir) (h : heap) : nres (heap * nfa) :=
  match k with
  | HEmpty => (* 248-256 *)
      let p := length h in
      let n := mk_nnode [p] [((0, max_char + 1)%N, [p])] in
      NOk (h ++ [n], mk_nfa [p] p p)
  | HLitU c => (* 257-262 *)
      let b := length h in let e := S b in
      NOk (h ++ [mk_nnode [] [((c, c + 1)%N, [e])]; nnode_default], mk_nfa [b; e] b e)
  | HLitB _ => NErr EByteLiteral (* 263-265 *)
  | HClassU rs => (* 267-276 *)
      let b := length h in let e := S b in
      let nx := fold_left (fun m r => rset (fst r, (snd r + 1)%N) [e] m) rs [] in
      NOk (h ++ [mk_nnode [] nx; nnode_default], mk_nfa [b; e] b e)
  | HClassB _ => NErr EBytesClass (* 277-279 *)
  | HAnchor => NErr EAnchor (* 281 *)
  | HWordB => NErr EWordBoundary (* 282 *)
  | HRep kind _ hh => (* 283-413; the greedy flag is never read *)
      ndo (h1, i) <- nfa_of hh h; mk_rep kind h1 i
  | HGroup hh => nfa_of hh h (* 415 *)
  | HConcat hs => (* 416-425 *)
      (fix go l h :=
         match l with
         | [] => NPanic (* vec.pop().unwrap() *)
         | [x] => nfa_of x h
         | x :: l' =>
             ndo (h1, r) <- go l' h;
             ndo (h2, n) <- nfa_of x h1;
             NOk (add_eps h2 (nfa_end n) (nfa_begin r),
                  mk_nfa (nfa_nodes r ++ nfa_nodes n) (nfa_begin n) (nfa_end r))
         end) hs h
  | HAlt hs => (* 426-441 *)
      let b := length h in let e := S b in
      let h0 := h ++ [nnode_default; nnode_default] in
      ndo (h', nodes) <-
        (fix go l h nodes :=
           match l with
           | [] => NOk (h, nodes)
           | x :: l' =>
               ndo (h1, n) <- nfa_of x h;
               go l' (add_eps (add_eps h1 b (nfa_begin n)) (nfa_end n) e) (nodes ++ nfa_nodes n)
           end) hs h0 [b; e];
      NOk (h', mk_nfa nodes b e)
  end.

(** ** TokenizerNFA, tokenizer/src/nfa.rs:99-104: all patterns in one graph.
    Boxed nodes are identified by their position in the vector. *)
Record tnfa := mk_tnfa { tn_nodes : list nnode; tn_begin : nat; tn_end : list nat }.

(** Translation of one NFA (nodes at positions [base..]) in the loop
    tokenizer/src/nfa.rs:144-168; [map] is [pos_of], shifted by [base]. *)
Definition embed (h : heap) (n : nfa) (base : nat) : nres (list nnode * nat * nat) :=
  let f p := option_map (fun i => base + i) (pos_of (nfa_nodes n) p) in
  ndo e <- n_of_opt (f (nfa_end n));
  ndo b <- n_of_opt (f (nfa_begin n));
  ndo olds <- nmapM (fun p => n_of_opt (nth_error h p)) (nfa_nodes n);
  ndo news <- nmapM (copy_node f) olds;
  NOk (news, b, e).

(** The loop over the patterns, tokenizer/src/nfa.rs:143-169.  Every pattern is built in its
    own heap: addresses only serve as identities. *)
Fixpoint tnfa_loop (ps : list hir) (nodes : list nnode) (beps : list nat) (ends : list nat)
  : nres (list nnode * list nat * list nat) :=
  match ps with
  | [] => NOk (nodes, beps, ends)
  | p :: ps' =>
      ndo (h, n) <- nfa_of p [];
      ndo (news, b, e) <- embed h n (length nodes);
      tnfa_loop ps' (nodes ++ news) (ins b beps) (ends ++ [e])
  end.

(** TryFrom<Vec<Hir>> for TokenizerNFA, tokenizer/src/nfa.rs:135-174 *)
Definition tnfa_of (ps : list hir) : nres tnfa :=
  ndo (nodes, beps, ends) <- tnfa_loop ps [] [] [];
  NOk (mk_tnfa (nodes ++ [mk_nnode beps []]) (length nodes) ends).
