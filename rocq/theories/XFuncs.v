(** Evaluation with functions given by the caller: [context(item, functions=fs)]
    (uxpath/__init__.py 74-88), [xml_xpath(xpath, funcs=fs)] (tree.py 37-64) and
    [qquery(..., funcs=fs)] (uxpath/__init__.py 102-137). *)
From Verif Require Import PyStr XTree Path XPath.

(** A value of the mapping [fs]: one of the functions of functions.py, or any other generator
    function.  It gets the argument expressions (here with their computations) and the context. *)
Definition own_function := list (expr * (item -> list item * fin)) -> item -> list item * fin.
Inductive func := Builtin (f : str) | Own (g : own_function).

Section EvalWith.
  Variable w : env.
  Variable fs : dict func.

  (** xast.py 711-716 function_call.compute; uxpath/__init__.py 85: [functions or BUILTIN_FUNCTIONS].
      The context is copied with its functions (uxpath/__init__.py 95-99). *)
  Definition call_with (dyn : option (expr -> item -> list item * fin)) (f : str) (raw : list expr)
      (args : list (item -> list item * fin)) (c : item) : list item * fin :=
    match fs with
    | [] => call w dyn f raw args c
    | _ => match dict_get fs f with
           | None => raise RuntimeErr
           | Some (Builtin b) => call w dyn b raw args c
           | Some (Own g) => g (combine raw args) c
           end
    end.

  (** The methods [compute] as in [eval]. *)
  Fixpoint eval_with (fuel : nat) : expr -> item -> list item * fin :=
    fix ev (e : expr) (c : item) {struct e} : list item * fin :=
      match e with
      | ELit l => yield1 (lit_item l)
      | ENeg r => first (ev r c) (raise TypeErr) (fun _ => raise TypeErr)
      | EBin l op r => binary w op c (ev l) (match op, r with
                                             | OpDeep, EStep _ t => step w fuel AxDescendantOrSelf t
                                             | _, _ => ev r
                                             end)
      | EAbs d None => absolute w d c None
      | EAbs d (Some r) => absolute w d c (Some (just_node r, ev r))
      | EStep ax t => step w fuel ax t c
      | EPred l ps => predicated w 1 c (fst (ev l c)) (snd (ev l c)) (map ev ps)
      | ETest t => test w t c
      | EAbbrev up => abbrev w up c
      | EVar n => match dict_get (vars w) n with Some i => yield1 i | None => raise KeyErr end
      | ECall f args => call_with (match fuel with O => None | S n => Some (eval_with n) end) f args (map ev args) c
      | ESeq l => seq_all (map (fun x => ev x c) l)
      end.
End EvalWith.
