(** Element patterns: the state machines built by treeiter.sender._prep_patterns and
    treeutil._prep_pattern. *)
From Verif Require Import PyStr.

(** A component of a pattern: a name, '*', '**' or a tuple of names.  Tuples with
    functions in them (treeiter.py 106, treeutil.py 134) are in PatternFun.v and SelectFun.v. *)
Inductive stage := StName (n : str) | StAny | StDeep | StAlt (ns : list str).

(** The chain of closures; [PMatched] is MATCHED_STATE. *)
Inductive pst :=
| PMatched
| POnly (n : str) (next : pst)       (* treeiter.py 66-70; treeutil.py 94-98 *)
| PAnyName (next : pst)              (* treeiter.py 72-76; treeutil.py 100-104 *)
| PUntil (next : pst)                (* treeiter.py 78-85; treeutil.py 106-113 *)
| PAlt (ns : list str) (next : pst). (* treeiter.py 87-91 with tree.py 241-244 *)

(** Calling a state with the start of an element (treeiter), or with an element (treeutil).
    [SType]: a TypeError, as [MATCHED_STATE] is not callable. *)
Inductive sres := SType | SNone | SState (s : pst).
Fixpoint pst_step (s : pst) (n : str) : sres :=
  match s with
  | PMatched => SType
  | POnly m next => if str_eqb n m then SState next else SNone
  | PAnyName next => SState next
  | PUntil next => match pst_step next n with SNone => SState s | r => r end
  | PAlt ns next => if existsb (str_eqb n) ns then SState next else SNone
  end.

(** One step of the loops treeiter.py 96-109, treeutil.py 124-137. *)
Definition prep_stage (st : stage) (next : pst) : pst :=
  match st with
  | StAny => PAnyName next
  | StDeep => PUntil next
  | StName n => POnly n next
  | StAlt ns => PAlt ns next
  end.
(** The stages are processed from the last to the first. *)
Definition prep_from (next : pst) (p : list stage) : pst := fold_right prep_stage next p.
