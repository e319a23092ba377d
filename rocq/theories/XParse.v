(** A recursive descent parser that does what the tables do. *)
From Verif Require Import PyStr XPath Lalr XGram XGramSpec XTok.

Inductive rr (A : Type) := Fuel | Bad | Ok (a : A) (rest : list token).
Arguments Fuel {A}. Arguments Bad {A}. Arguments Ok {A} a rest.
Definition rbind {A B} (r : rr A) (k : A -> list token -> rr B) : rr B :=
  match r with Ok a l => k a l | Bad => Bad | Fuel => Fuel end.

Section R.
  Variable br : bool.      (* the lexer fails at the end *)

  (** what may come after an expression *)
  Definition follow (l : list token) : bool :=
    match l with
    | [] => negb br
    | t :: _ => match t with
                | P RPar | P RBrk | P Comma | P LBrk | P Slash | P Slashes => true
                | _ => match operator t with Some _ => true | None => false end
                end
    end.
  Definition done {A} (a : A) (l : list token) : rr A := if follow l then Ok a l else Bad.
  Definition step_start (l : list token) : bool :=
    match l with
    | Word _ :: _ | P Dot :: _ | P Dots :: _ | P At :: _ | P Star :: _ => true
    | _ => false
    end.
  Definition axis_of (s : str) : option axis := dict_get axes s.
  Definition call_of (f : str) (es : list expr) : expr :=
    if str_eqb f (lit "node") then ETest TNode else if str_eqb f (lit "text") then ETest TText else ECall f es.

  Fixpoint r_expr (n m : nat) (l : list token) {struct n} : rr expr :=
    match n with
    | O => Fuel
    | S n => rbind (r_primary n l) (fun e l => r_loop n m e l)
    end
  with r_primary (n : nat) (l : list token) {struct n} : rr expr :=
    match n with
    | O => Fuel
    | S n =>
        match l with
        | P Minus :: l => rbind (r_expr n minus_strength l) (fun e l => Ok (ENeg e) l)
        | P LPar :: _ => rbind (r_args n l) (fun es l => Ok (ESeq es) l)
        | Quoted s :: l => done (ELit (LStr s)) l
        | Int z :: l => done (ELit (LInt z)) l
        | Flt f :: l => done (ELit (LFlt f)) l
        | P Dollar :: Word s :: l => done (EVar s) l
        | P Slash :: l => if step_start l then rbind (r_path n l) (fun p l => Ok (EAbs false (Some p)) l) else done (EAbs false None) l
        | P Slashes :: l => rbind (r_path n l) (fun p l => Ok (EAbs true (Some p)) l)
        | Word f :: ((P LPar :: _) as l) => rbind (r_args n l) (fun es l => Ok (call_of f es) l)
        | _ => r_path n l
        end
    end
  with r_loop (n m : nat) (e : expr) (l : list token) {struct n} : rr expr :=
    match n with
    | O => Fuel
    | S n =>
        match l with
        | [] => Ok e l
        | t :: l1 =>
            match operator t with
            | Some op => if Nat.ltb m (strength op) then rbind (r_expr n (strength op) l1) (fun r l => r_loop n m (EBin e op r) l) else Ok e l
            | None =>
                if Nat.eqb m 0 then
                  match t with
                  | P LBrk => rbind (r_preds n [] l1) (fun ps l => r_loop n m (EPred e ps) l)
                  | P Slash => rbind (r_path n l1) (fun p l => r_loop n m (EBin e OpPath p) l)
                  | P Slashes => rbind (r_path n l1) (fun p l => r_loop n m (EBin e OpDeep p) l)
                  | _ => Ok e l
                  end
                else Ok e l
            end
        end
    end
  with r_args (n : nat) (l : list token) {struct n} : rr (list expr) :=
    match n with
    | O => Fuel
    | S n =>
        match l with
        | P LPar :: P RPar :: l => done [] l
        | P LPar :: l => r_list n [] l
        | _ => Bad
        end
    end
  with r_list (n : nat) (acc : list expr) (l : list token) {struct n} : rr (list expr) :=
    match n with
    | O => Fuel
    | S n => rbind (r_expr n 0 l) (fun e l =>
               match l with
               | P RPar :: l => done (acc ++ [e]) l
               | P Comma :: l => r_list n (acc ++ [e]) l
               | _ => Bad
               end)
    end
  with r_preds (n : nat) (acc : list expr) (l : list token) {struct n} : rr (list expr) :=
    match n with
    | O => Fuel
    | S n => rbind (r_expr n 0 l) (fun e l =>
               match l with
               | P RBrk :: P LBrk :: l => r_preds n (acc ++ [e]) l
               | P RBrk :: l => done (acc ++ [e]) l
               | _ => Bad
               end)
    end
  with r_test (n : nat) (l : list token) {struct n} : rr ntest :=
    match n with
    | O => Fuel
    | S n =>
        match l with
        | Word f :: ((P LPar :: _) as l) => rbind (r_args n l) (fun es l => match call_of f es with ETest t => Ok t l | _ => Bad end)
        | Word s :: l => done (TName s) l
        | P Star :: l => done TStar l
        | _ => Bad
        end
    end
  with r_step (n : nat) (l : list token) {struct n} : rr expr :=
    match n with
    | O => Fuel
    | S n =>
        match l with
        | P Dot :: l => done (EAbbrev false) l
        | P Dots :: l => done (EAbbrev true) l
        | P At :: l => rbind (r_test n l) (fun t l => Ok (EStep AxAttribute t) l)
        | Word s :: P Colons :: l => match axis_of s with
                                     | Some ax => rbind (r_test n l) (fun t l => Ok (EStep ax t) l)
                                     | None => Bad
                                     end
        | _ => rbind (r_test n l) (fun t l => Ok (EStep AxChild t) l)
        end
    end
  with r_path (n : nat) (l : list token) {struct n} : rr expr :=
    match n with
    | O => Fuel
    | S n => rbind (r_step n l) (fun e l => r_more n e l)
    end
  with r_more (n : nat) (e : expr) (l : list token) {struct n} : rr expr :=
    match n with
    | O => Fuel
    | S n =>
        match l with
        | P Slash :: l => rbind (r_step n l) (fun s l => r_more n (EBin e OpPath s) l)
        | P Slashes :: l => rbind (r_step n l) (fun s l => r_more n (EBin e OpDeep s) l)
        | _ => Ok e l
        end
    end.


  (** ** Equations *)
  Lemma r_expr_S (n m : nat) (l : list token) : r_expr (S n) m l =
      rbind (r_primary n l) (fun e l => r_loop n m e l).
  Proof. reflexivity. Qed.
  Lemma r_primary_S (n : nat) (l : list token) : r_primary (S n) l =
      match l with
        | P Minus :: l => rbind (r_expr n minus_strength l) (fun e l => Ok (ENeg e) l)
        | P LPar :: _ => rbind (r_args n l) (fun es l => Ok (ESeq es) l)
        | Quoted s :: l => done (ELit (LStr s)) l
        | Int z :: l => done (ELit (LInt z)) l
        | Flt f :: l => done (ELit (LFlt f)) l
        | P Dollar :: Word s :: l => done (EVar s) l
        | P Slash :: l => if step_start l then rbind (r_path n l) (fun p l => Ok (EAbs false (Some p)) l) else done (EAbs false None) l
        | P Slashes :: l => rbind (r_path n l) (fun p l => Ok (EAbs true (Some p)) l)
        | Word f :: ((P LPar :: _) as l) => rbind (r_args n l) (fun es l => Ok (call_of f es) l)
        | _ => r_path n l
        end.
  Proof. reflexivity. Qed.
  Lemma r_loop_S (n m : nat) (e : expr) (l : list token) : r_loop (S n) m e l =
      match l with
        | [] => Ok e l
        | t :: l1 =>
            match operator t with
            | Some op => if Nat.ltb m (strength op) then rbind (r_expr n (strength op) l1) (fun r l => r_loop n m (EBin e op r) l) else Ok e l
            | None =>
                if Nat.eqb m 0 then
                  match t with
                  | P LBrk => rbind (r_preds n [] l1) (fun ps l => r_loop n m (EPred e ps) l)
                  | P Slash => rbind (r_path n l1) (fun p l => r_loop n m (EBin e OpPath p) l)
                  | P Slashes => rbind (r_path n l1) (fun p l => r_loop n m (EBin e OpDeep p) l)
                  | _ => Ok e l
                  end
                else Ok e l
            end
        end.
  Proof. reflexivity. Qed.
  Lemma r_args_S (n : nat) (l : list token) : r_args (S n) l =
      match l with
        | P LPar :: P RPar :: l => done [] l
        | P LPar :: l => r_list n [] l
        | _ => Bad
        end.
  Proof. reflexivity. Qed.
  Lemma r_list_S (n : nat) (acc : list expr) (l : list token) : r_list (S n) acc l =
      rbind (r_expr n 0 l) (fun e l =>
               match l with
               | P RPar :: l => done (acc ++ [e]) l
               | P Comma :: l => r_list n (acc ++ [e]) l
               | _ => Bad
               end).
  Proof. reflexivity. Qed.
  Lemma r_preds_S (n : nat) (acc : list expr) (l : list token) : r_preds (S n) acc l =
      rbind (r_expr n 0 l) (fun e l =>
               match l with
               | P RBrk :: P LBrk :: l => r_preds n (acc ++ [e]) l
               | P RBrk :: l => done (acc ++ [e]) l
               | _ => Bad
               end).
  Proof. reflexivity. Qed.
  Lemma r_test_S (n : nat) (l : list token) : r_test (S n) l =
      match l with
        | Word f :: ((P LPar :: _) as l) => rbind (r_args n l) (fun es l => match call_of f es with ETest t => Ok t l | _ => Bad end)
        | Word s :: l => done (TName s) l
        | P Star :: l => done TStar l
        | _ => Bad
        end.
  Proof. reflexivity. Qed.
  Lemma r_step_S (n : nat) (l : list token) : r_step (S n) l =
      match l with
        | P Dot :: l => done (EAbbrev false) l
        | P Dots :: l => done (EAbbrev true) l
        | P At :: l => rbind (r_test n l) (fun t l => Ok (EStep AxAttribute t) l)
        | Word s :: P Colons :: l => match axis_of s with
                                     | Some ax => rbind (r_test n l) (fun t l => Ok (EStep ax t) l)
                                     | None => Bad
                                     end
        | _ => rbind (r_test n l) (fun t l => Ok (EStep AxChild t) l)
        end.
  Proof. reflexivity. Qed.
  Lemma r_path_S (n : nat) (l : list token) : r_path (S n) l =
      rbind (r_step n l) (fun e l => r_more n e l).
  Proof. reflexivity. Qed.
  Lemma r_more_S (n : nat) (e : expr) (l : list token) : r_more (S n) e l =
      match l with
        | P Slash :: l => rbind (r_step n l) (fun s l => r_more n (EBin e OpPath s) l)
        | P Slashes :: l => rbind (r_step n l) (fun s l => r_more n (EBin e OpDeep s) l)
        | _ => Ok e l
        end.
  Proof. reflexivity. Qed.
End R.
