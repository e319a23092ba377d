(** Theorems about how the string functions go together (uxpath/functions.py). *)
From Coq Require Import ZArith.
From Verif Require Import PyStr XTree Path XPath XPathSpec XStringsSpec XStringsFacts Prop_XPath.

(** ** C145 *)
(** What stands before, the separator and what stands after make up the string. *)
Theorem C145_split w n x y c s t : arg_string w (eval w n x c) s -> begins_with w (eval w n y c) t -> t <> [] ->
  eval w n (fn "contains" [x; y]) c = ([IBool true], Done) ->
  eval w n (fn "concat" [fn "substring-before" [x; y]; fn "string" [y]; fn "substring-after" [x; y]]) c = ([IStr s], Done).
Proof. exact (split_join w n x y c s t). Qed.
Print Assumptions C145_split.
(** Finding: without the separator, all of it stands before (nothing in XPath). *)
Theorem C145_apart w n x y c s t : arg_string w (eval w n x c) s -> arg_string w (eval w n y c) t -> t <> [] ->
  eval w n (fn "contains" [x; y]) c = ([IBool false], Done) ->
  gives w (eval w n (fn "substring-before" [x; y]) c) s /\ eval w n (fn "substring-after" [x; y]) c = ([IStr []], Done).
Proof. exact (apart w n x y c s t). Qed.
Print Assumptions C145_apart.
Theorem C145_starts_contains w n x y c s t : arg_string w (eval w n x c) s -> arg_string w (eval w n y c) t ->
  eval w n (fn "starts-with" [x; y]) c = ([IBool true], Done) -> eval w n (fn "contains" [x; y]) c = ([IBool true], Done).
Proof. exact (starts_contains w n x y c s t). Qed.
Print Assumptions C145_starts_contains.
Theorem C145_starts_before w n x y c s t : arg_string w (eval w n x c) s -> arg_string w (eval w n y c) t -> t <> [] ->
  (eval w n (fn "starts-with" [x; y]) c = ([IBool true], Done) <->
   eval w n (fn "contains" [x; y]) c = ([IBool true], Done) /\ eval w n (fn "substring-before" [x; y]) c = ([IStr []], Done)).
Proof. exact (starts_before w n x y c s t). Qed.
Print Assumptions C145_starts_before.
Theorem C145_concat_groups w n x y z c s t u : gives w (eval w n x c) s -> gives w (eval w n y c) t -> gives w (eval w n z c) u ->
  eval w n (fn "concat" [fn "concat" [x; y]; z]) c = ([IStr (s ++ t ++ u)], Done) /\
  eval w n (fn "concat" [x; fn "concat" [y; z]]) c = ([IStr (s ++ t ++ u)], Done) /\
  eval w n (fn "concat" [x; y; z]) c = ([IStr (s ++ t ++ u)], Done).
Proof. exact (concat_groups w n x y z c s t u). Qed.
Print Assumptions C145_concat_groups.
Theorem C145_concat_parts w n x y c s t : gives w (eval w n x c) s -> gives w (eval w n y c) t ->
  eval w n (fn "starts-with" [fn "concat" [x; y]; x]) c = ([IBool true], Done) /\
  eval w n (fn "contains" [fn "concat" [x; y]; y]) c = ([IBool true], Done) /\
  eval w n (fn "string-length" [fn "concat" [x; y]]) c = ([IInt (Z.of_nat (length s) + Z.of_nat (length t))], Done).
Proof. exact (concat_starts w n x y c s t). Qed.
Print Assumptions C145_concat_parts.
Theorem C145_substrings w n x c s (k m : nat) : arg_string w (eval w n x c) s -> length s <= k + m ->
  eval w n (fn "concat" [fn "substring" [x; ilit 1; ilit (Z.of_nat k)]; fn "substring" [x; ilit (Z.of_nat (S k)); ilit (Z.of_nat m)]]) c = ([IStr s], Done).
Proof. exact (substring_join w n x c s k m). Qed.
Print Assumptions C145_substrings.
Theorem C145_string_twice w n x c s : begins_with w (eval w n x c) s -> eval w n (fn "string" [fn "string" [x]]) c = eval w n (fn "string" [x]) c.
Proof. exact (string_string w n x c s). Qed.
Print Assumptions C145_string_twice.

(** Finding: an operand without results is "False" for contains, but "" for string. *)
Theorem C145_empty_refuted : exists w n x y c s t, gives w (eval w n x c) s /\ arg_string w (eval w n y c) t /\ t <> [] /\
  eval w n (fn "contains" [x; y]) c = ([IBool true], Done) /\
  eval w n (fn "concat" [fn "substring-before" [x; y]; fn "string" [y]; fn "substring-after" [x; y]]) c <> ([IStr s], Done).
Proof.
  exists (doc_env N1), 5, (slit "aFalseb"), (child "z"), (INode []), (lit "aFalseb"), (lit "False").
  split; [eexists; split; [vm_compute; reflexivity|constructor]|]. split; [exists (IBool false); split; [right; split; [vm_compute; reflexivity|reflexivity]|constructor]|].
  split; [discriminate|]. split; [vm_compute; reflexivity|]. vm_compute. discriminate.
Qed.
Print Assumptions C145_empty_refuted.
(** Finding: concat takes all results of an operand, starts-with the first. *)
Theorem C145_many_refuted : exists w n x y c s t, begins_with w (eval w n x c) s /\ gives w (eval w n y c) t /\
  eval w n (fn "concat" [x; y]) c <> ([IStr (s ++ t)], Done).
Proof.
  exists (doc_env N1), 5, (ESeq [slit "a"; slit "b"]), (slit "c"), (INode []), (lit "a"), (lit "c").
  split; [do 3 eexists; split; [vm_compute; reflexivity|constructor]|]. split; [eexists; split; [vm_compute; reflexivity|constructor]|]. vm_compute. discriminate.
Qed.
Print Assumptions C145_many_refuted.
Example C145_case : let w := doc_env N1 in let x := slit "key=val" in let y := slit "=" in
  gives w (eval w 5 x (INode [])) (lit "key=val") /\ begins_with w (eval w 5 y (INode [])) (lit "=") /\
  eval w 5 (fn "contains" [x; y]) (INode []) = ([IBool true], Done) /\ eval w 5 (fn "contains" [y; x]) (INode []) = ([IBool false], Done) /\
  eval w 5 (fn "substring-before" [x; y]) (INode []) = ([IStr (lit "key")], Done) /\ eval w 5 (fn "starts-with" [x; slit "ke"]) (INode []) = ([IBool true], Done) /\
  eval w 5 (fn "concat" [fn "substring-before" [x; y]; fn "string" [y]; fn "substring-after" [x; y]]) (INode []) = ([IStr (lit "key=val")], Done).
Proof.
  cbv zeta. split; [eexists; split; [vm_compute; reflexivity|constructor]|]. split; [do 3 eexists; split; [vm_compute; reflexivity|constructor]|]. repeat split; vm_compute; reflexivity.
Qed.
