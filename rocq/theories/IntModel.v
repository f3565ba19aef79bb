(** Model of the tokenizer build with the integers of the machine: `u32` for characters and repetition counts.  The other models use numbers
    without bound and a subtraction that stops at 0; here an addition or subtraction that leaves `u32` panics (a build with overflow checks) or
    wraps around (a build without).  Positions and counts of elements in memory (`usize`) stay unbounded. *)
From Verif Require Import Lib Hir NfaModel DfaModel MinModel TokModel.

(** 2^32, the number of values of `u32` (tokenizer/src/lib.rs:16) *)
Definition u32_size : N := 0x100000000%N.

Section Int.
  (** whether overflow wraps around (the profile the crate is compiled with; tokenizer/Cargo.toml sets none) *)
  Variable wraps : bool.

  (** `a + b` on u32, as in tokenizer/src/nfa.rs:253, 261, 273, tokenizer/src/dfa.rs:224 *)
  Definition add32 (a b : N) : option N :=
    if (a + b <? u32_size)%N then Some (a + b)%N else if wraps then Some ((a + b) mod u32_size)%N else None.
  (** `a - b` on u32, as in tokenizer/src/lib.rs:24, 27 *)
  Definition sub32 (a b : N) : option N :=
    if (b <=? a)%N then Some (a - b)%N else if wraps then Some ((u32_size + a - b) mod u32_size)%N else None.
  (** `a - b` on repetition counts, tokenizer/src/nfa.rs:308, 328, 353, 374, 387, 393 *)
  Definition less (a b : nat) : option nat := option_map N.to_nat (sub32 (N.of_nat a) (N.of_nat b)).

  (** Exactly(n) and Bounded(n,n), tokenizer/src/nfa.rs:306-318, 372-384 *)
  Definition exactly32 (n : nat) (h : heap) (i : nfa) : nres (heap * nfa) :=
    ndo (h1, c) <- clone h i;
    ndo k <- n_of_opt (less n 2);
    ndo (h2, nodes, e) <- chain k i h1 (nfa_nodes c) (nfa_end c);
    NOk (add_eps h2 e (nfa_begin i), mk_nfa (nodes ++ nfa_nodes i) (nfa_begin c) (nfa_end i)).
  (** AtLeast(n), tokenizer/src/nfa.rs:326-340 *)
  Definition at_least32 (n : nat) (h : heap) (i : nfa) : nres (heap * nfa) :=
    ndo (h1, c) <- clone h i;
    ndo k <- n_of_opt (less n 1);
    ndo (h2, nodes, e) <- chain k i h1 (nfa_nodes c) (nfa_end c);
    NOk (add_eps (add_eps h2 e (nfa_begin i)) (nfa_end i) (nfa_begin i),
         mk_nfa (nodes ++ nfa_nodes i) (nfa_begin c) (nfa_begin i)).
  (** Bounded(0,m), tokenizer/src/nfa.rs:351-370 *)
  Definition up_to32 (m : nat) (h : heap) (i : nfa) : nres (heap * nfa) :=
    ndo (h1, c) <- clone h i;
    ndo k <- n_of_opt (less m 2);
    ndo (h2, nodes, e) <- chain_skip k i h1 (nfa_nodes c) (nfa_end c);
    let h3 := add_eps (add_eps h2 e (nfa_begin i)) e (nfa_end i) in
    NOk (add_eps h3 (nfa_begin c) (nfa_end i), mk_nfa (nodes ++ nfa_nodes i) (nfa_begin c) (nfa_end i)).
  (** Bounded(n,m), tokenizer/src/nfa.rs:385-409 *)
  Definition bounded32 (n m : nat) (h : heap) (i : nfa) : nres (heap * nfa) :=
    ndo (h1, c) <- clone h i;
    ndo k <- n_of_opt (less n 1);
    ndo (h2, nodes, e) <- chain k i h1 (nfa_nodes c) (nfa_end c);
    ndo d <- n_of_opt (less m n);
    ndo k' <- n_of_opt (less d 1);
    ndo (h3, nodes', e') <- chain_skip k' i h2 nodes e;
    let h4 := add_eps (add_eps h3 e' (nfa_begin i)) e' (nfa_end i) in
    NOk (h4, mk_nfa (nodes' ++ nfa_nodes i) (nfa_begin c) (nfa_end i)).

  (** tokenizer/src/nfa.rs:285-413, in the order of its arms *)
  Definition rep32 (k : rep) (h : heap) (i : nfa) : nres (heap * nfa) :=
    match k with
    | RZeroOrOne => NOk (mk_opt h i)
    | RZeroOrMore => NOk (mk_star h i)
    | ROneOrMore => NOk (mk_plus h i)
    | RExactly n => match n with 0 => NOk (mk_zero h) | 1 => NOk (h, i) | _ => exactly32 n h i end
    | RAtLeast n => match n with 0 => NOk (mk_star h i) | _ => at_least32 n h i end
    | RBounded n m =>
        match n, m with
        | 0, 0 => NOk (mk_zero h)
        | 0, 1 => NOk (mk_opt h i)
        | 0, _ => up_to32 m h i
        | 1, 1 => NOk (h, i)
        | _, _ => if Nat.eqb n m then exactly32 n h i else if Nat.ltb n m then bounded32 n m h i else NPanic
        end
    end.

  (** the ranges of a class, tokenizer/src/nfa.rs:272-274 *)
  Fixpoint class32 (rs : list (N * N)) (e : nat) (m : list ((N * N) * list nat)) : nres (list ((N * N) * list nat)) :=
    match rs with
    | [] => NOk m
    | r :: rs' => ndo hi <- n_of_opt (add32 (snd r) 1); class32 rs' e (rset (fst r, hi) [e] m)
    end.

  (** TryFrom<HirKind> for NFA, tokenizer/src/nfa.rs:243-444 *)
  Fixpoint nfa32 (k : hir) (h : heap) : nres (heap * nfa) :=
    match k with
    | HEmpty =>
        let p := length h in
        ndo hi <- n_of_opt (add32 max_char 1);
        NOk (h ++ [mk_nnode [p] [((0%N, hi), [p])]], mk_nfa [p] p p)
    | HLitU c =>
        let b := length h in let e := S b in
        ndo hi <- n_of_opt (add32 c 1);
        NOk (h ++ [mk_nnode [] [((c, hi), [e])]; nnode_default], mk_nfa [b; e] b e)
    | HLitB _ => NErr EByteLiteral
    | HClassU rs =>
        let b := length h in let e := S b in
        ndo nx <- class32 rs e [];
        NOk (h ++ [mk_nnode [] nx; nnode_default], mk_nfa [b; e] b e)
    | HClassB _ => NErr EBytesClass
    | HAnchor => NErr EAnchor
    | HWordB => NErr EWordBoundary
    | HRep kind _ hh => ndo (h1, i) <- nfa32 hh h; rep32 kind h1 i
    | HGroup hh => nfa32 hh h
    | HConcat hs =>
        (fix go l h :=
           match l with
           | [] => NPanic
           | [x] => nfa32 x h
           | x :: l' =>
               ndo (h1, r) <- go l' h;
               ndo (h2, n) <- nfa32 x h1;
               NOk (add_eps h2 (nfa_end n) (nfa_begin r),
                    mk_nfa (nfa_nodes r ++ nfa_nodes n) (nfa_begin n) (nfa_end r))
           end) hs h
    | HAlt hs =>
        let b := length h in let e := S b in
        let h0 := h ++ [nnode_default; nnode_default] in
        ndo (h', nodes) <-
          (fix go l h nodes :=
             match l with
             | [] => NOk (h, nodes)
             | x :: l' =>
                 ndo (h1, n) <- nfa32 x h;
                 go l' (add_eps (add_eps h1 b (nfa_begin n)) (nfa_end n) e) (nodes ++ nfa_nodes n)
             end) hs h0 [b; e];
        NOk (h', mk_nfa nodes b e)
    end.

  (** The loop over the patterns, tokenizer/src/nfa.rs:143-169 *)
  Fixpoint tnfa_loop32 (ps : list hir) (nodes : list nnode) (beps : list nat) (ends : list nat) : nres (list nnode * list nat * list nat) :=
    match ps with
    | [] => NOk (nodes, beps, ends)
    | p :: ps' =>
        ndo (h, n) <- nfa32 p [];
        ndo (news, b, e) <- embed h n (length nodes);
        tnfa_loop32 ps' (nodes ++ news) (ins b beps) (ends ++ [e])
    end.
  (** TryFrom<Vec<Hir>> for TokenizerNFA, tokenizer/src/nfa.rs:135-174 *)
  Definition tnfa32 (ps : list hir) : nres tnfa :=
    ndo (nodes, beps, ends) <- tnfa_loop32 ps [] [] [];
    NOk (mk_tnfa (nodes ++ [mk_nnode beps []]) (length nodes) ends).

  (** align_by_begin, tokenizer/src/dfa.rs:218-239: the keys from `upper + 1` on *)
  Fixpoint align32 (cur : N * emap) (rest : bmap) : res bmap :=
    match rest with
    | [] => Ok [cur]
    | (upper, nxt) :: rest' =>
        do from <- of_opt (add32 upper 1);
        let greater := filter (fun kv => N.leb from (fst kv)) (snd cur) in
        let keep := filter (fun kv => negb (N.leb from (fst kv))) (snd cur) in
        match greater with
        | [] => do l <- align32 (upper, nxt) rest'; Ok (cur :: l)
        | _ =>
            let limit := fold_left (fun s kv => ins_all (snd kv) s) greater [] in
            do l <- align32 (upper, fold_left (fun m kv => bupd (fst kv) [] (fun old => ins_all (snd kv) old) m) greater nxt) rest';
            Ok ((fst cur, bupd upper [] (fun old => ins_all limit old) keep) :: l)
        end
    end.
  (** tokenizer/src/dfa.rs:218-239 *)
  Definition align_by_begin32 (m : bmap) : res bmap := match m with [] => Ok [] | x :: r => align32 x r end.

  (** One iteration of the loop, tokenizer/src/dfa.rs:91-118 *)
  Definition dfa_step32 (h : list nnode) (st : dstate) : dstate + res dstate :=
    match ds_q st with
    | [] => inr (Ok st)
    | cur :: q =>
        match ref_of (ds_ref st) cur with
        | None => inr Panic
        | Some c =>
            if mem c (ds_done st) then inl (mk_dstate (ds_nodes st) (ds_ref st) q (ds_done st))
            else
              let st1 := mk_dstate (ds_nodes st) (ds_ref st) q (ins c (ds_done st)) in
              match (do m <- collect h cur; do m' <- align_by_begin32 m; foldM (add_target cur) (split_by_end m') st1) with
              | Ok st2 => inl st2
              | Panic => inr Panic
              | OutOfFuel => inr OutOfFuel
              end
        end
    end.
  (** From<TokenizerNFA>, tokenizer/src/dfa.rs:72-130 *)
  Definition dfa32 (order : list (list nat * nat) -> list (list nat * nat)) (fuel : nat) (t : tnfa) : res (dfa * list end_conflict) :=
    do b <- eps_rec (tn_nodes t) (tn_begin t);
    do st <- loop (dfa_step32 (tn_nodes t)) fuel (mk_dstate [[]] [(b, 0)] [b] []);
    let (en, ws) := mark_all (tn_end t) (order (ds_ref st)) in
    Ok (mk_dfa (ds_nodes st) 0 en, ws).

  (** TokenizerBuilder::build, tokenizer/src/tokenizer.rs:106-113 *)
  Definition build32 {E T} (P PErr : Type) (parse : P -> hir + PErr) (env : build_env) (fuel : nat) (patterns : list (P * (list N -> list T -> E)))
    : bres PErr (tokenizer E T * list end_conflict) :=
    let (regex, functions) := split patterns in
    match parse_all P PErr parse regex with
    | inr e => BErr (RegexError e)
    | inl hirs =>
        match tnfa32 hirs with
        | NErr e => BErr (ConstructError e)
        | NPanic => BPanic
        | NOk nfa =>
            of_res PErr (do (d, ws) <- dfa32 (be_order env) fuel nfa;
                    do d' <- minify (be_min env) d;
                    do t <- tok_new d' functions;
                    Ok (t, ws))
        end
    end.

  (** `impl Debug for CharRange`, tokenizer/src/lib.rs:19-32: [None] is a panic; otherwise the one character shown, or the first and the last one.
      How a character is printed is left open. *)
  Definition debug_range (r : N * N) : option (N + N * N) :=
    match sub32 (snd r) (fst r) with
    | None => None
    | Some d => if N.eqb d 1 then Some (inl (fst r)) else option_map (fun l => inr (fst r, l)) (sub32 (snd r) 1)
    end.
End Int.
