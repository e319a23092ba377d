(** ply.yacc, as far as uxpath uses it: the LALR(1) tables of a grammar without empty
    productions, and the parser that runs on them.

    The tables are those of the textbook construction, of which PLY has an equivalent one
    (LRGeneratedTable): states are sets of items, closed under the productions of the nonterminals
    after the dot, with the terminals that may follow every item; states with the same items are
    merged.  The numbers of the states differ from PLY's.  Not modelled: error recovery (p_error
    raises), defaulted states (the grammar of uxpath has none: no state has a single lookahead). *)
From Verif Require Import PyStr.

(** Terminals and nonterminals are numbered; 0 is the end of the input. *)
Inductive sym := T (n : nat) | V (n : nat).
Definition sym_eqb (x y : sym) : bool :=
  match x, y with T n, T m => Nat.eqb n m | V n, V m => Nat.eqb n m | _, _ => false end.
Inductive assoc := ALeft | ARight.
(** Grammar.add_production: the precedence of a production. *)
Record production := mkP { p_lhs : nat; p_rhs : list sym; p_prec : assoc * nat }.

Section Tables.
  (** The productions in the order of the source; the first one is S' : start. *)
  Variable prods : list production.
  (** Grammar.Precedence; level 0 if there is none. *)
  Variable tprec : nat -> assoc * nat.

  (** An item: the number of a production and the position of the dot in it.  Sets of terminals are
      bit sets. *)
  Notation item := (nat * nat)%type (only parsing).
  Definition item_eqb (a b : item) : bool := Nat.eqb (fst a) (fst b) && Nat.eqb (snd a) (snd b).
  Definition item_leb (a b : item) : bool :=
    if Nat.eqb (fst a) (fst b) then Nat.leb (snd a) (snd b) else Nat.leb (fst a) (fst b).
  Definition prod_of (n : nat) : production := nth n prods (mkP 0 [] (ARight, 0)).
  Definition after (i : item) : list sym := skipn (snd i) (p_rhs (prod_of (fst i))).
  Definition bit (t : nat) : N := N.shiftl 1 (N.of_nat t).
  Definition has (s : N) (t : nat) : bool := N.testbit s (N.of_nat t).
  Definition subset (a b : N) : bool := N.eqb (N.lor a b) b.

  Definition numbered : list (nat * production) := combine (seq 0 (length prods)) prods.
  (** Grammar.compute_first *)
  Definition fget (f : list (nat * N)) (n : nat) : N := match find (fun x => Nat.eqb (fst x) n) f with Some (_, s) => s | None => 0 end.
  Fixpoint fadd (f : list (nat * N)) (n : nat) (s : N) : list (nat * N) :=
    match f with
    | [] => [(n, s)]
    | (m, r) :: f' => if Nat.eqb m n then (m, N.lor r s) :: f' else (m, r) :: fadd f' n s
    end.
  Definition first_round (f : list (nat * N)) : list (nat * N) :=
    fold_left (fun f p => match p_rhs p with
                          | T t :: _ => fadd f (p_lhs p) (bit t)
                          | V v :: _ => fadd f (p_lhs p) (fget f v)
                          | [] => f
                          end) prods f.
  Definition firsts : list (nat * N) := Nat.iter (length prods) first_round [].

  (** ** Closures with lookahead *)
  Fixpoint merge (it : item) (s : N) (l : list (item * N)) : list (item * N) :=
    match l with
    | [] => [(it, s)]
    | (i, r) :: l' => if item_eqb i it then (i, N.lor r s) :: l' else (i, r) :: merge it s l'
    end.
  Definition known (it : item) (s : N) (l : list (item * N)) : bool :=
    existsb (fun x => item_eqb (fst x) it && subset s (snd x)) l.
  (** The items that an item with lookahead [s] calls for. *)
  Definition calls (fs : list (nat * N)) (it : item) (s : N) : list (item * N) :=
    match after it with
    | V v :: rest =>
        let s' := match rest with [] => s | T t :: _ => bit t | V u :: _ => fget fs u end in
        map (fun np => ((fst np, 0), s')) (filter (fun np => Nat.eqb (p_lhs (snd np)) v) numbered)
    | _ => []
    end.
  Fixpoint closure (fuel : nat) (fs : list (nat * N)) (todo acc : list (item * N)) : list (item * N) :=
    match fuel, todo with
    | S n, (it, s) :: r =>
        if known it s acc then closure n fs r acc
        else closure n fs (calls fs it s ++ r) (merge it s acc)
    | _, _ => acc
    end.
  Definition closed (fs : list (nat * N)) (k : list (item * N)) : list (item * N) := closure 5000 fs k [].

  Fixpoint insert (x : item * N) (l : list (item * N)) : list (item * N) :=
    match l with
    | [] => [x]
    | y :: r => if item_leb (fst x) (fst y) then x :: l else y :: insert x r
    end.
  (** lr0_goto: the kernel of the state reached by a symbol *)
  Definition advance (x : sym) (c : list (item * N)) : list (item * N) :=
    fold_right insert []
      (flat_map (fun is => match after (fst is) with
                           | y :: _ => if sym_eqb x y then [((fst (fst is), S (snd (fst is))), snd is)] else []
                           | [] => []
                           end) c).
  Fixpoint dedup (l : list sym) : list sym :=
    match l with [] => [] | x :: r => x :: filter (fun y => negb (sym_eqb x y)) (dedup r) end.
  Definition symbols (c : list (item * N)) : list sym :=
    dedup (flat_map (fun is => match after (fst is) with y :: _ => [y] | [] => [] end) c).

  (** ** States *)
  Fixpoint same_core (a b : list (item * N)) : bool :=
    match a, b with
    | [], [] => true
    | (i, _) :: a', (j, _) :: b' => item_eqb i j && same_core a' b'
    | _, _ => false
    end.
  Fixpoint join (a b : list (item * N)) : list (item * N) :=
    match a, b with
    | (i, s) :: a', (_, r) :: b' => (i, N.lor s r) :: join a' b'
    | _, _ => a
    end.
  Fixpoint add_state (k : list (item * N)) (sts : list (list (item * N))) : list (list (item * N)) :=
    match sts with
    | [] => [k]
    | s :: r => if same_core s k then join s k :: r else s :: add_state k r
    end.
  Fixpoint expand (fuel : nat) (fs : list (nat * N)) (i : nat) (sts : list (list (item * N))) : list (list (item * N)) :=
    match fuel with
    | O => sts
    | S n =>
        match nth_error sts i with
        | None => sts
        | Some k =>
            let c := closed fs k in
            expand n fs (S i) (fold_left (fun sts x => add_state (advance x c) sts) (symbols c) sts)
        end
    end.
  Fixpoint stable (a b : list (list (item * N))) : bool :=
    match a, b with
    | [], [] => true
    | x :: a', y :: b' => same_core x y && forallb (fun p => N.eqb (snd (fst p)) (snd (snd p))) (combine x y) && stable a' b'
    | _, _ => false
    end.
  Fixpoint rounds (fuel : nat) (fs : list (nat * N)) (sts : list (list (item * N))) : list (list (item * N)) :=
    match fuel with
    | O => sts
    | S n => let sts' := expand 500 fs 0 sts in if stable sts sts' then sts else rounds n fs sts'
    end.
  Definition start_state : list (item * N) := [((0, 0), bit 0)].
  Definition all_states : list (list (item * N)) := rounds 50 firsts [start_state].

  (** ** Actions *)
  Inductive act := Shift (s : nat) | Reduce (p : nat) | Accept.
  Fixpoint index_of (k : list (item * N)) (n : nat) (sts : list (list (item * N))) : nat :=
    match sts with [] => n | s :: r => if same_core s k then n else index_of k (S n) r end.
  Definition aget (l : list (nat * act)) (t : nat) : option act :=
    match find (fun x => Nat.eqb (fst x) t) l with Some (_, a) => Some a | None => None end.
  Fixpoint aset (l : list (nat * act)) (t : nat) (a : act) : list (nat * act) :=
    match l with
    | [] => [(t, a)]
    | (u, b) :: r => if Nat.eqb u t then (t, a) :: r else (u, b) :: aset r t a
    end.
  (** LRGeneratedTable.lr_parse_table: a conflict of a shift of [t] and a reduction of [p]; the
      reduction wins if its production binds tighter, or as tight and to the left. *)
  Definition reduces (t p : nat) : bool :=
    let sl := snd (tprec t) in
    let '(ra, rl) := p_prec (prod_of p) in
    Nat.ltb sl rl || (Nat.eqb sl rl && match ra with ALeft => true | ARight => false end).
  Definition add_reduce (p : nat) (acts : list (nat * act)) (t : nat) : list (nat * act) :=
    match aget acts t with
    | Some (Shift _) => if reduces t p then aset acts t (Reduce p) else acts
    | Some (Reduce q) => if Nat.leb q p then acts else aset acts t (Reduce p)   (* the rule defined first *)
    | Some Accept => acts
    | None => aset acts t (if Nat.eqb p 0 then Accept else Reduce p)
    end.
  Definition add_shift (t s : nat) (acts : list (nat * act)) : list (nat * act) :=
    match aget acts t with
    | Some (Reduce q) => if reduces t q then acts else aset acts t (Shift s)
    | _ => aset acts t (Shift s)
    end.
  (** [nterm] terminals *)
  Definition actions_of (nterm : nat) (sts : list (list (item * N))) (c : list (item * N)) : list (nat * act) :=
    fold_left (fun acts is =>
      match after (fst is) with
      | [] => fold_left (add_reduce (fst (fst is))) (filter (has (snd is)) (seq 0 nterm)) acts
      | T t :: _ => add_shift t (index_of (advance (T t) c) 0 sts) acts
      | V _ :: _ => acts
      end) c [].
  Definition gotos_of (sts : list (list (item * N))) (c : list (item * N)) : list (nat * nat) :=
    flat_map (fun x => match x with V v => [(v, index_of (advance x c) 0 sts)] | T _ => [] end) (symbols c).
  Definition tables (nterm : nat) : list (list (nat * act) * list (nat * nat)) :=
    let sts := all_states in
    map (fun k => let c := closed firsts k in (actions_of nterm sts c, gotos_of sts c)) sts.
End Tables.
