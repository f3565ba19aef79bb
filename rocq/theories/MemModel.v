(** Model of the memory side of tokenizer/src/nfa.rs: reference counts, weak pointers, locks and freed memory.

    [NfaModel.v] takes pointers as positions in a heap that only grows.  Here the same code runs on a memory in which the
    allocator may return any address that is not in use, a node is freed when its last [Arc] is dropped, and a write
    lock that is held blocks every other access.  What the Rust compiler inserts (the drops at the end of scopes, of
    assignments and of early returns by [?]) is written out.

    Simplifications: an [Edge] (a [Weak]) is the address of its node; in Rust the block of a freed node is not handed out again
    as long as there are weak pointers to it, here it may be.  A read lock is taken and given back at once: while
    one is held, the code of this file takes no lock of the same node.  A lock is not poisoned, since that takes a panic.
    [HashSet]s of addresses are sorted lists as in [NfaModel.v], maps from addresses to positions are [pos_of]. *)
From Verif Require Import Lib Hir NfaModel.

(** tokenizer/src/nfa.rs:199-209 *)
Record cell := mk_cell { c_count : nat; c_locked : bool; c_node : nnode }.
(** the live cells; the clock lets an allocator answer differently at different times (tokenizer/src/nfa.rs:205-209) *)
Record store := mk_store { st_cells : list (nat * cell); st_clock : nat }.

(** A value, an NFAConstructError, waiting for ever for a lock, access to freed memory, or a panic (tokenizer/src/nfa.rs:235-246) *)
Inductive cres (A : Type) := COk (a : A) (s : store) | CErr (e : nerr) (s : store) | CDeadlock | CDangling | CPanic.
Arguments COk {A} a s. Arguments CErr {A} e s. Arguments CDeadlock {A}. Arguments CDangling {A}. Arguments CPanic {A}.
(** effects on the memory, tokenizer/src/nfa.rs:211-444 *)
Definition M (A : Type) := store -> cres A.
(** return, as in tokenizer/src/nfa.rs:223 *)
Definition ret {A} (a : A) : M A := fun s => COk a s.
(** [x?] with the drops [undo] of an early return (tokenizer/src/nfa.rs:416-441) *)
Definition bind_or {A B} (undo : M unit) (x : M A) (f : A -> M B) : M B := fun s =>
  match x s with
  | COk a s' => f a s'
  | CErr e s' => match undo s' with COk _ s'' => CErr e s'' | CErr e' s'' => CErr e' s'' | CDeadlock => CDeadlock | CDangling => CDangling | CPanic => CPanic end
  | CDeadlock => CDeadlock | CDangling => CDangling | CPanic => CPanic
  end.
(** `;` and `?`, as in tokenizer/src/nfa.rs:284 *)
Definition cbind {A B} (x : M A) (f : A -> M B) : M B := bind_or (ret tt) x f.
Notation "'cdo' x <- a ; b" := (cbind a (fun x => b)) (at level 100, x pattern, a at level 99, b at level 100, right associativity).
Notation "a ;; b" := (cbind a (fun _ => b)) (at level 100, right associativity).
(** tokenizer/src/nfa.rs:218 *)
Definition lift {A} (x : nres A) : M A := fun s => match x with NOk a => COk a s | NErr e => CErr e s | NPanic => CPanic end.
(** `iter().map(..).collect()`, as in tokenizer/src/nfa.rs:214 *)
Fixpoint cmapM {A B} (f : A -> M B) (l : list A) : M (list B) :=
  match l with [] => ret [] | a :: l' => cdo b <- f a; cdo bs <- cmapM f l'; ret (b :: bs) end.
(** a `for` loop, as in tokenizer/src/nfa.rs:215 *)
Fixpoint citer {A} (f : A -> M unit) (l : list A) : M unit :=
  match l with [] => ret tt | a :: l' => f a ;; citer f l' end.

(** the node of an address, tokenizer/src/nfa.rs:199-203 *)
Definition look (s : store) (a : nat) : option cell := aget Nat.eqb a (st_cells s).
(** a node changed, tokenizer/src/nfa.rs:199-203 *)
Definition put (s : store) (a : nat) (c : cell) : store := mk_store (aset Nat.eqb a c (st_cells s)) (st_clock s).
(** a node freed, tokenizer/src/nfa.rs:199-203 *)
Definition free (s : store) (a : nat) : store := mk_store (filter (fun x => negb (Nat.eqb a (fst x))) (st_cells s)) (st_clock s).
(** access to a node, tokenizer/src/nfa.rs:199-203 *)
Definition with_cell {A} (a : nat) (f : cell -> M A) : M A := fun s => match look s a with Some c => f c s | None => CDangling end.

(** Arc::clone (tokenizer/src/nfa.rs:221-222) *)
Definition retain (a : nat) : M unit := with_cell a (fun c s => COk tt (put s a (mk_cell (S (c_count c)) (c_locked c) (c_node c)))).
(** drop of an Arc: the last one frees the node (tokenizer/src/nfa.rs:205-209) *)
Definition release (a : nat) : M unit := with_cell a (fun c s =>
  match c_count c with S (S k) => COk tt (put s a (mk_cell (S k) (c_locked c) (c_node c))) | _ => COk tt (free s a) end).
(** RwLock::write, and the drop of the guard (tokenizer/src/nfa.rs:216, 251, 271) *)
Definition lock (a : nat) : M unit := with_cell a (fun c s => if c_locked c then CDeadlock else COk tt (put s a (mk_cell (c_count c) true (c_node c)))).
(** tokenizer/src/nfa.rs:220, 254, 275 *)
Definition unlock (a : nat) : M unit := with_cell a (fun c s => COk tt (put s a (mk_cell (c_count c) false (c_node c)))).
(** a change through a guard (tokenizer/src/nfa.rs:218-219) *)
Definition poke (a : nat) (f : nnode -> nnode) : M unit := with_cell a (fun c s =>
  if c_locked c then COk tt (put s a (mk_cell (c_count c) (c_locked c) (f (c_node c)))) else CDangling).
(** RwLock::read, the content (tokenizer/src/nfa.rs:217) *)
Definition peek (a : nat) : M nnode := with_cell a (fun c s => if c_locked c then CDeadlock else COk (c_node c) s).
(** [a.write().unwrap()] as a temporary (tokenizer/src/nfa.rs:287) *)
Definition write (a : nat) (f : nnode -> nnode) : M unit := lock a ;; poke a f ;; unlock a.
(** epsilon.insert(Edge(Arc::downgrade(&q))), next.insert(r, v) (tokenizer/src/nfa.rs:201) *)
Definition to_eps (q : nat) (n : nnode) : nnode := mk_nnode (ins q (n_eps n)) (n_next n).
(** tokenizer/src/nfa.rs:202 *)
Definition to_next (r : crange) (v : list nat) (n : nnode) : nnode := mk_nnode (n_eps n) (rset r v (n_next n)).
(** drop of a vector of Arcs and of an NFA (tokenizer/src/nfa.rs:206) *)
Definition release_all (l : list nat) : M unit := citer release l.
(** tokenizer/src/nfa.rs:205-209 *)
Definition owned (n : nfa) : list nat := nfa_nodes n ++ [nfa_begin n; nfa_end n].
(** tokenizer/src/nfa.rs:205-209 *)
Definition drop_nfa (n : nfa) : M unit := release_all (owned n).

Section Alloc.
  (** The allocator: from the clock and the addresses in use to an address *)
  Variable al : nat -> list nat -> nat.

  (** Arc::new(Default::default()) (tokenizer/src/nfa.rs:214) *)
  Definition new : M nat := fun s =>
    let a := al (st_clock s) (map fst (st_cells s)) in COk a (mk_store ((a, mk_cell 1 false nnode_default) :: st_cells s) (S (st_clock s))).

  (** NFA::clone, tokenizer/src/nfa.rs:211-225 *)
  Definition c_clone (n : nfa) : M nfa :=
    cdo news <- cmapM (fun _ => new) (nfa_nodes n);
    let f p := match pos_of (nfa_nodes n) p with Some i => nth_error news i | None => None end in
    citer (fun x => lock (fst x) ;; cdo nd <- peek (snd x); cdo nd' <- lift (copy_node f nd); poke (fst x) (fun _ => nd') ;; unlock (fst x)) (combine news (nfa_nodes n)) ;;
    cdo b <- lift (n_of_opt (f (nfa_begin n))); retain b ;;
    cdo e <- lift (n_of_opt (f (nfa_end n))); retain e ;;
    ret (mk_nfa news b e).

  (** the loops of tokenizer/src/nfa.rs:308-313, 328-333, 374-379, 387-392: the assignment to [end] drops the old one, the end of
      the body drops [nfa.begin] *)
  Fixpoint c_chain (k : nat) (inner : nfa) (nodes : list nat) (e : nat) : M (list nat * nat) :=
    match k with
    | 0 => ret (nodes, e)
    | S k' =>
        cdo c <- c_clone inner;
        write e (to_eps (nfa_begin c)) ;; release e ;; release (nfa_begin c) ;;
        c_chain k' inner (nodes ++ nfa_nodes c) (nfa_end c)
    end.
  (** two insertions under one guard, tokenizer/src/nfa.rs:356-359, 363-366, 396-399, 403-406 *)
  Definition write2 (a q q' : nat) : M unit := lock a ;; poke a (to_eps q) ;; poke a (to_eps q') ;; unlock a.
  (** tokenizer/src/nfa.rs:353-361, 393-401 *)
  Fixpoint c_chain_skip (k : nat) (inner : nfa) (nodes : list nat) (e : nat) : M (list nat * nat) :=
    match k with
    | 0 => ret (nodes, e)
    | S k' =>
        cdo c <- c_clone inner;
        write2 e (nfa_begin c) (nfa_end inner) ;; release e ;; release (nfa_begin c) ;;
        c_chain_skip k' inner (nodes ++ nfa_nodes c) (nfa_end c)
    end.

  (** tokenizer/src/nfa.rs:286-289, 347-350 *)
  Definition c_opt (i : nfa) : M nfa := write (nfa_begin i) (to_eps (nfa_end i)) ;; ret i.
  (** tokenizer/src/nfa.rs:290-294, 321-325: the assignment to [inner.end] drops the old one *)
  Definition c_star (i : nfa) : M nfa :=
    write (nfa_end i) (to_eps (nfa_begin i)) ;; retain (nfa_begin i) ;; release (nfa_end i) ;; ret (mk_nfa (nfa_nodes i) (nfa_begin i) (nfa_begin i)).
  (** tokenizer/src/nfa.rs:295-298 *)
  Definition c_plus (i : nfa) : M nfa := write (nfa_end i) (to_eps (nfa_begin i)) ;; ret i.
  (** tokenizer/src/nfa.rs:301-304, 343-346: [inner] is dropped at the end *)
  Definition c_zero (i : nfa) : M nfa := cdo p <- new; retain p ;; retain p ;; drop_nfa i ;; ret (mk_nfa [p] p p).
  (** tokenizer/src/nfa.rs:306-318, 372-384 *)
  Definition c_exactly (n : nat) (i : nfa) : M nfa :=
    cdo c <- c_clone i;
    cdo (nodes, e) <- c_chain (n - 2) i (nfa_nodes c) (nfa_end c);
    write e (to_eps (nfa_begin i)) ;; release e ;; release (nfa_begin i) ;;
    ret (mk_nfa (nodes ++ nfa_nodes i) (nfa_begin c) (nfa_end i)).
  (** tokenizer/src/nfa.rs:326-340 *)
  Definition c_at_least (n : nat) (i : nfa) : M nfa :=
    cdo c <- c_clone i;
    cdo (nodes, e) <- c_chain (n - 1) i (nfa_nodes c) (nfa_end c);
    write e (to_eps (nfa_begin i)) ;; write (nfa_end i) (to_eps (nfa_begin i)) ;;
    retain (nfa_begin i) ;; release (nfa_end i) ;; release e ;; release (nfa_begin i) ;;
    ret (mk_nfa (nodes ++ nfa_nodes i) (nfa_begin c) (nfa_begin i)).
  (** tokenizer/src/nfa.rs:351-370 *)
  Definition c_bounded0 (m : nat) (i : nfa) : M nfa :=
    cdo c <- c_clone i;
    cdo (nodes, e) <- c_chain_skip (m - 2) i (nfa_nodes c) (nfa_end c);
    write2 e (nfa_begin i) (nfa_end i) ;; release e ;;
    write (nfa_begin c) (to_eps (nfa_end i)) ;; release (nfa_begin i) ;;
    ret (mk_nfa (nodes ++ nfa_nodes i) (nfa_begin c) (nfa_end i)).
  (** tokenizer/src/nfa.rs:385-409 *)
  Definition c_bounded (n m : nat) (i : nfa) : M nfa :=
    cdo c <- c_clone i;
    cdo (nodes, e) <- c_chain (n - 1) i (nfa_nodes c) (nfa_end c);
    cdo (nodes', e') <- c_chain_skip (m - n - 1) i nodes e;
    write2 e' (nfa_begin i) (nfa_end i) ;; release e' ;; release (nfa_begin i) ;;
    ret (mk_nfa (nodes' ++ nfa_nodes i) (nfa_begin c) (nfa_end i)).

  (** tokenizer/src/nfa.rs:285-413 *)
  Definition c_rep (k : rep) (i : nfa) : M nfa :=
    match k with
    | RZeroOrOne => c_opt i
    | RZeroOrMore => c_star i
    | ROneOrMore => c_plus i
    | RExactly n => match n with 0 => c_zero i | 1 => ret i | _ => c_exactly n i end
    | RAtLeast n => match n with 0 => c_star i | _ => c_at_least n i end
    | RBounded n m =>
        match n, m with
        | 0, 0 => c_zero i
        | 0, 1 => c_opt i
        | 0, _ => c_bounded0 m i
        | 1, 1 => ret i
        | _, _ => if Nat.eqb n m then c_exactly n i else if Nat.ltb n m then c_bounded n m i else fun _ => CPanic
        end
    end.

  (** TryFrom<HirKind> for NFA, tokenizer/src/nfa.rs:243-444 *)
  Fixpoint c_nfa_of (k : hir) : M nfa :=
    match k with
    | HEmpty => (* 248-256: one guard *)
        cdo p <- new; lock p ;; poke p (to_eps p) ;; poke p (to_next (0, max_char + 1)%N [p]) ;; unlock p ;;
        retain p ;; retain p ;; ret (mk_nfa [p] p p)
    | HLitU c => (* 257-262 *)
        cdo b <- new; cdo e <- new; write b (to_next (c, c + 1)%N [e]) ;; retain b ;; retain e ;; ret (mk_nfa [b; e] b e)
    | HLitB _ => fun s => CErr EByteLiteral s
    | HClassU rs => (* 267-276: one guard for all ranges *)
        cdo b <- new; cdo e <- new; lock b ;; citer (fun r => poke b (to_next (fst r, (snd r + 1)%N) [e])) rs ;; unlock b ;;
        retain b ;; retain e ;; ret (mk_nfa [b; e] b e)
    | HClassB _ => fun s => CErr EBytesClass s
    | HAnchor => fun s => CErr EAnchor s
    | HWordB => fun s => CErr EWordBoundary s
    | HRep kind _ hh => cdo i <- c_nfa_of hh; c_rep kind i
    | HGroup hh => c_nfa_of hh
    | HConcat hs => (* 416-425: an error drops [node], [begin] and [end]; the assignment to [begin] drops the old one *)
        (fix go l : M nfa :=
           match l with
           | [] => fun _ => CPanic
           | [x] => c_nfa_of x
           | x :: l' =>
               cdo r <- go l';
               bind_or (drop_nfa r) (c_nfa_of x) (fun n =>
               write (nfa_end n) (to_eps (nfa_begin r)) ;; release (nfa_begin r) ;; release (nfa_end n) ;;
               ret (mk_nfa (nfa_nodes r ++ nfa_nodes n) (nfa_begin n) (nfa_end r)))
           end) hs
    | HAlt hs => (* 426-441: the guard of [begin] is held during the loop; an error drops it, [node], [begin] and [end] *)
        cdo b <- new; cdo e <- new; retain b ;; retain e ;; lock b ;;
        cdo nodes <-
          (fix go l nodes : M (list nat) :=
             match l with
             | [] => ret nodes
             | x :: l' =>
                 bind_or (unlock b ;; release_all (nodes ++ [b; e])) (c_nfa_of x) (fun n =>
                 poke b (to_eps (nfa_begin n)) ;; write (nfa_end n) (to_eps e) ;; release (nfa_begin n) ;; release (nfa_end n) ;;
                 go l' (nodes ++ nfa_nodes n))
             end) hs [b; e];
        unlock b ;; ret (mk_nfa nodes b e)
    end.

  (** One turn of the loop tokenizer/src/nfa.rs:143-169; at its end [nfa] is dropped.  The boxes of the TokenizerNFA are
      identified by their positions. *)
  Definition c_embed (n : nfa) (base : nat) : M (list nnode * nat * nat) :=
    let f p := option_map (fun i => base + i) (pos_of (nfa_nodes n) p) in
    cdo e <- lift (n_of_opt (f (nfa_end n)));
    cdo b <- lift (n_of_opt (f (nfa_begin n)));
    cdo news <- cmapM (fun p => cdo nd <- peek p; lift (copy_node f nd)) (nfa_nodes n);
    drop_nfa n ;; ret (news, b, e).
  (** tokenizer/src/nfa.rs:143-169 *)
  Fixpoint c_loop (ps : list hir) (nodes : list nnode) (beps ends : list nat) : M (list nnode * list nat * list nat) :=
    match ps with
    | [] => ret (nodes, beps, ends)
    | p :: ps' =>
        cdo n <- c_nfa_of p;
        cdo (news, b, e) <- c_embed n (length nodes);
        c_loop ps' (nodes ++ news) (ins b beps) (ends ++ [e])
    end.
  (** TryFrom<Vec<Hir>> for TokenizerNFA, tokenizer/src/nfa.rs:135-174 *)
  Definition c_tnfa_of (ps : list hir) : M tnfa :=
    cdo (nodes, beps, ends) <- c_loop ps [] [] [];
    ret (mk_tnfa (nodes ++ [mk_nnode beps []]) (length nodes) ends).
End Alloc.
