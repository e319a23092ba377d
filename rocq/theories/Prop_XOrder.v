(** Theorems about comparisons turned round and negated (uxpath/xast.py). *)
From Verif Require Import PyStr XTree Path XPath XPathSpec XOrderSpec XOrderFacts Prop_XPath.

(** ** C146 *)
(** The operands may change sides if the operator is turned round, exceptions included. *)
Theorem C146_mirrored w n op op' l r c i l' f j r' g : mirrored op op' -> eval w n l c = (i :: l', f) -> eval w n r c = (j :: r', g) ->
  eval w n (EBin l op r) c = eval w n (EBin r op' l) c.
Proof. exact (mirrored_same w n op op' l r c i l' f j r' g). Qed.
Print Assumptions C146_mirrored.
(** < is the negation of >=, and > of <=, on strings and on numbers other than NaN. *)
Theorem C146_opposite w n op op' l r c i l' f j r' g : opposite op op' -> eval w n l c = (i :: l', f) -> eval w n r c = (j :: r', g) -> same_kind w i j ->
  exists b, eval w n (EBin l op r) c = ([IBool b], Done) /\ eval w n (EBin l op' r) c = ([IBool (negb b)], Done).
Proof. exact (opposite_negated w n op op' l r c i l' f j r' g). Qed.
Print Assumptions C146_opposite.
Theorem C146_transitive w n l m r c i l' f j m' g k r' h s t u : eval w n l c = (i :: l', f) -> eval w n m c = (j :: m', g) -> eval w n r c = (k :: r', h) ->
  text_item w i s -> text_item w j t -> text_item w k u ->
  eval w n (EBin l OpLt m) c = ([IBool true], Done) -> eval w n (EBin m OpLt r) c = ([IBool true], Done) -> eval w n (EBin l OpLt r) c = ([IBool true], Done).
Proof. exact (before_trans w n l m r c i l' f j m' g k r' h s t u). Qed.
Print Assumptions C146_transitive.
(** <= and >= together mean equal strings. *)
Theorem C146_antisymmetric w n l r c i l' f j r' g s t : eval w n l c = (i :: l', f) -> eval w n r c = (j :: r', g) -> text_item w i s -> text_item w j t ->
  (eval w n (EBin l OpLe r) c = ([IBool true], Done) /\ eval w n (EBin l OpGe r) c = ([IBool true], Done) <-> s = t).
Proof. exact (trichotomy w n l r c i l' f j r' g s t). Qed.
Print Assumptions C146_antisymmetric.
(** = and != of two single values can be turned round and are negations of each other. *)
Theorem C146_equal w n l r c i j : eval w n l c = ([i], Done) -> eval w n r c = ([j], Done) -> ~ is_node_item i -> ~ is_node_item j ->
  exists b, eval w n (EBin l OpEq r) c = ([IBool b], Done) /\ eval w n (EBin r OpEq l) c = ([IBool b], Done) /\
    eval w n (EBin l OpNe r) c = ([IBool (negb b)], Done) /\ eval w n (EBin r OpNe l) c = ([IBool (negb b)], Done).
Proof. exact (equal_swapped w n l r c i j). Qed.
Print Assumptions C146_equal.

(** Findings: = cannot be turned round if one side is a node, or a sequence; NaN is neither less, nor greater or equal. *)
Theorem C146_node_refuted : exists w n l r c i j, eval w n l c = ([i], Done) /\ eval w n r c = ([j], Done) /\
  eval w n (EBin l OpEq r) c = ([IBool true], Done) /\ eval w n (EBin r OpEq l) c = ([], Exn AttributeErr).
Proof. exists (doc_env N1), 0, (child "a" /_ child "x"), (slit "4"), IRoot. do 2 eexists. repeat split; vm_compute; reflexivity. Qed.
Print Assumptions C146_node_refuted.
Theorem C146_sequence_refuted : exists w n l r c, eval w n (EBin l OpEq r) c = ([IBool true], Done) /\ eval w n (EBin r OpEq l) c = ([IBool false], Done).
Proof. exists (doc_env N1), 0, (ilit 2), (ESeq [ilit 1; ilit 2]), IRoot. repeat split; vm_compute; reflexivity. Qed.
Print Assumptions C146_sequence_refuted.
Theorem C146_nan_refuted : exists w n l r c i j, eval w n l c = ([i], Done) /\ eval w n r c = ([j], Done) /\ opposite OpLt OpGe /\
  eval w n (EBin l OpLt r) c = ([IBool false], Done) /\ eval w n (EBin l OpGe r) c = ([IBool false], Done).
Proof.
  exists (mkEnv N1 [] (fun _ => inr RuntimeErr) (fun _ => Some FNan) (fun _ => [])), 0, (fn "number" [slit "nan"]), (ilit 2), IRoot. do 2 eexists.
  repeat split; try (vm_compute; reflexivity). now left.
Qed.
Print Assumptions C146_nan_refuted.
Example C146_case : let w := doc_env N1 in mirrored OpLt OpGt /\ opposite OpLt OpGe /\ same_kind w (IStr (lit "ab")) (IStr (lit "b")) /\ same_kind w (IInt 1) (IFlt (FFin 5 (-1))) /\
  eval w 0 (slit "ab") IRoot = ([IStr (lit "ab")], Done) /\ eval w 0 (EBin (slit "ab") OpLt (slit "b")) IRoot = ([IBool true], Done) /\
  eval w 0 (EBin (slit "b") OpLt (slit "ba")) IRoot = ([IBool true], Done) /\ eval w 0 (EBin (slit "b") OpGt (slit "ab")) IRoot = ([IBool true], Done) /\
  eval w 0 (EBin (slit "b") OpLe (ilit 1)) IRoot = ([], Exn TypeErr) /\ eval w 0 (EBin (ilit 1) OpGe (slit "b")) IRoot = ([], Exn TypeErr).
Proof.
  cbv zeta. split; [now left|]. split; [now left|]. split; [left; do 2 eexists; split; constructor|].
  split; [right; do 2 eexists; split; [reflexivity|split; [reflexivity|split; discriminate]]|]. repeat split; vm_compute; reflexivity.
Qed.
