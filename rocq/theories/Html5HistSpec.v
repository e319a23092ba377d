(** The calls html5lib makes, and what holds of the nodes throughout. *)
From Verif Require Import PyStr Parser XTree Heap HeapSpec Html5 Html5Hist.

(** An argument html5lib may put into [self]: an element that is in no list of children and does not
    contain [self]; anything else is copied. *)
Definition fits (h : heap) (self : ref) (x : harg) : Prop :=
  match x with HRef i => is_elem h i -> (forall p, ~ child h p i) /\ ~ below h i self | _ => True end.
(** One call *)
Inductive hstep : heap -> heap -> Prop :=
| hs_new h u name ns : hstep h (fst (alloc h (OElem (x_name (eclass u name ns)) [] [] None)))
| hs_clone h self h' j : h_cloneNode h self = Some (h', j) -> hstep h h'
| hs_attributes h self l h' : h_set_attributes h self l = EOk h' -> hstep h h'
| hs_append h self x h' : fits h self x -> h_appendChild h self x = EOk h' -> hstep h h'
| hs_before h self x r h' : fits h self x -> h_insertBefore h self x r = EOk h' -> hstep h h'
| hs_text h self s r h' : h_insertText h self s r = EOk h' -> hstep h h'
| hs_remove h self x h' : h_removeChild h self x = EOk h' -> hstep h h'
| hs_reparent h self q h' : ~ below h self q -> h_reparentChildren h self q = EOk h' -> hstep h h'
| hs_lax h t h' top : parse_lax h (Some t) = LaxOk h' top -> hstep h h'
| hs_gone h h' : collected h h' -> hstep h h'.
Inductive hsteps : heap -> heap -> Prop :=
| hss_nil h : hsteps h h
| hss_cons h h1 h2 : hstep h h1 -> hsteps h1 h2 -> hsteps h h2.

(** Every child refers to the element that has it in its list, no list names anybody twice, and every
    node is the root of a finite tree of different nodes.  A node that is in no list may still refer
    to an element it has been in. *)
Definition forest (h : heap) : Prop :=
  allocated h /\ (forall p i, child h p i -> parent_is h i (Some p)) /\ no_twice h /\ all_trees h.
