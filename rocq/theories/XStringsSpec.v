(** Strings that expressions give. *)
From Verif Require Import PyStr XTree Path XPath XPathSpec.

(** One result, whose string value is [s]. *)
Definition gives (w : env) (r : list item * fin) (s : str) : Prop := exists i, r = ([i], Done) /\ string_value w i s.
(** At least one result; the string value of the first is [s]. *)
Definition begins_with (w : env) (r : list item * fin) (s : str) : Prop := exists i l f, r = (i :: l, f) /\ string_value w i s.
