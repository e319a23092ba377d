(** XML documents with namespaces as expat reports them, and the MicroXML they stand for. *)
From Verif Require Import PyStr Parser XTree TreeUtil Expat.

(** A name: the namespace name, if any, and the local name; neither has white space in it. *)
Definition qname : Type := option str * str.
Definition unspaced (s : str) : Prop := s <> [] /\ forall c, In c s -> py_isspace c = false.
Definition good_name (q : qname) : Prop :=
  unspaced (snd q) /\ match fst q with Some ns => unspaced ns | None => True end.
Definition expanded (q : qname) : str :=
  match fst q with Some ns => ns ++ [32%N] ++ snd q | None => snd q end.

(** [firsts l l']: [l'] are the different members of [l] in order of their first occurrence. *)
Inductive firsts : list str -> list str -> Prop :=
| fi_nil : firsts [] []
| fi_old l l' k : firsts l l' -> In k l -> firsts (l ++ [k]) l'
| fi_new l l' k : firsts l l' -> ~ In k l -> firsts (l ++ [k]) (l' ++ [k]).
(** Attributes without namespaces: of those with the same local name the last one counts. *)
Definition collapsed (ats : list (qname * str)) (d : dict str) : Prop :=
  firsts (map (fun x => snd (fst x)) ats) (map fst d) /\
  forall k v, In (k, v) d <-> exists l1 q l2, ats = l1 ++ (q, v) :: l2 /\ snd q = k /\ forall x, In x l2 -> snd (fst x) <> k.
Definition reported (ats : list (qname * str)) : dict str := map (fun x => (expanded (fst x), snd x)) ats.

(** [report cs ks]: [cs] are the calls for some content that is [ks] without namespaces.
    Every piece of text that is reported is a text of its own. *)
Inductive report : list cb -> list xtree -> Prop :=
| rp_nil : report [] []
| rp_ns cs ks : report cs ks -> report (CbNamespace :: cs) ks
| rp_text s cs ks : report cs ks -> report (CbChars s :: cs) (XT s :: ks)
| rp_elem q ats d cs0 ks0 cs ks :
    good_name q -> Forall (fun x => good_name (fst x)) ats -> collapsed ats d -> report cs0 ks0 -> report cs ks ->
    report (CbStart (expanded q) (reported ats) :: cs0 ++ CbEnd (expanded q) :: cs) (XE (snd q) d ks0 :: ks).

(** The words of a string *)
Inductive words : str -> list str -> Prop :=
| wd_nil s : (forall c, In c s -> py_isspace c = true) -> words s []
| wd_last b x : (forall c, In c b -> py_isspace c = true) -> unspaced x -> words (b ++ x) [x]
| wd_cons b x c s l : (forall c, In c b -> py_isspace c = true) -> unspaced x -> py_isspace c = true -> words s l ->
    words (b ++ x ++ c :: s) (x :: l).
