(** Specifications for treeutil.py. *)
From Verif Require Import PyStr XTree Path Pattern PatternSpec.

(** [filtered P l l']: [l'] has exactly the items of [l] that satisfy [P], in order. *)
Inductive filtered {A} (P : A -> Prop) : list A -> list A -> Prop :=
| fi_nil : filtered P [] []
| fi_keep x l l' : P x -> filtered P l l' -> filtered P (x :: l) (x :: l')
| fi_drop x l l' : ~ P x -> filtered P l l' -> filtered P (x :: l) l'.

(** ** Selection by path below the start *)
Definition names_below (t : xtree) (a : addr) : list str := tl (path_names t a).
(** The element at [a], below the start, is matched and none between the start and it is. *)
Definition selected (p : list stage) (t : xtree) (a : addr) (u : xtree) : Prop :=
  a <> [] /\ is_element u /\ matches p (names_below t a) /\
  forall b, b <> [] -> above b a -> ~ matches p (names_below t b).

(** ** White space *)

(** The characters Python regards as white space. *)
Definition space_chars : list N :=
  [9; 10; 11; 12; 13; 28; 29; 30; 31; 32; 133; 160; 5760; 8192; 8193; 8194; 8195; 8196; 8197; 8198; 8199;
   8200; 8201; 8202; 8232; 8233; 8239; 8287; 12288]%N.
Definition space (s : str) : Prop := forall c, In c s -> In c space_chars.

(** [unspaced t t']: [t'] is [t] without the text nodes that are entirely white space. *)
Inductive unspaced : xtree -> xtree -> Prop :=
| un_elem n a ks ks' : unspaced_all ks ks' -> unspaced (XE n a ks) (XE n a ks')
| un_text s : ~ space s -> unspaced (XT s) (XT s)
with unspaced_all : list xtree -> list xtree -> Prop :=
| ua_nil : unspaced_all [] []
| ua_blank s ks ks' : space s -> unspaced_all ks ks' -> unspaced_all (XT s :: ks) ks'
| ua_keep k k' ks ks' : unspaced k k' -> unspaced_all ks ks' -> unspaced_all (k :: ks) (k' :: ks').
Scheme unspaced_mut := Minimality for unspaced Sort Prop
  with unspaced_all_mut := Minimality for unspaced_all Sort Prop.

(** ** Layout *)
Definition line (ind : str) (depth : nat) : xtree := XT (10%N :: concat (repeat ind depth)).
(** Data-like trees: an element has only elements in it, or a single text that is not white space. *)
Inductive data_tree : xtree -> Prop :=
| dt_kids n a ks : (forall k, In k ks -> is_element k /\ data_tree k) -> data_tree (XE n a ks)
| dt_leaf n a s : ~ space s -> data_tree (XE n a [XT s]).
(** Such a tree laid out with every element on its own line, the content of an element at
    depth [d] indented [d + 1] times and its end tag [d] times. *)
Inductive laid_out (ind : str) : nat -> xtree -> xtree -> Prop :=
| lo_leaf d n a s : laid_out ind d (XE n a [XT s]) (XE n a [XT s])
| lo_kids d n a ks ks' : (forall k, In k ks -> is_element k) -> laid_kids ind d ks ks' -> laid_out ind d (XE n a ks) (XE n a ks')
with laid_kids (ind : str) : nat -> list xtree -> list xtree -> Prop :=
| lk_end d : laid_kids ind d [] [line ind d]
| lk_kid d k k' ks ks' : laid_out ind (S d) k k' -> laid_kids ind d ks ks' ->
    laid_kids ind d (k :: ks) (line ind (S d) :: k' :: ks').
