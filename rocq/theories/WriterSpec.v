(** Specifications for the writers. *)
From Verif Require Import PyStr CharClass Parser XTree Grammar ParserSpec TreeSpec.
From Verif Require Import Writer. (* only for the type [wcall] *)

(** [calls open cs open']: with the elements [open] open (innermost first) the calls [cs] are
    properly nested and leave [open'] open; nothing is written outside the document element. *)
Inductive calls : list str -> list wcall -> list str -> Prop :=
| ca_nil open : calls open [] open
| ca_start open n a cs open' : open <> [] -> calls (n :: open) cs open' -> calls open (CStart n a false :: cs) open'
| ca_end open n cs open' : calls open cs open' -> calls (n :: open) (CEnd n :: cs) open'
| ca_text open s cs open' : open <> [] -> calls open cs open' -> calls open (CText s :: cs) open'.
Definition document_calls (cs : list wcall) (open : list str) : Prop :=
  exists n a cs', cs = CStart n a false :: cs' /\ calls [n] cs' open.

(** Nothing called yet, or a document that is not complete. *)
Definition in_progress (cs : list wcall) (open : list str) : Prop :=
  cs = [] /\ open = [] \/ document_calls cs open /\ open <> [].

(** Names are names, attribute maps are maps and values have no tab, newline or carriage return. *)
Definition good_call (c : wcall) : Prop :=
  match c with
  | CStart n a _ => name n /\ NoDup (map fst a) /\ forall k v, In (k, v) a -> name k /\ plain_value v
  | CEnd n => name n
  | CText _ => True
  end.

(** The events that the calls stand for. *)
Fixpoint call_events (open : list str) (cs : list wcall) : list event :=
  match cs with
  | [] => []
  | CStart n a _ :: r => EvStart n a (rev open) :: call_events (n :: open) r
  | CEnd n :: r => EvEnd n (rev (tl open)) :: call_events (tl open) r
  | CText s :: r => EvChars s :: call_events open r
  end.

(** What is left of an event sequence: characters that are not MicroXML characters disappear, adjacent text
    is merged and empty text disappears. *)
Definition cons_chars (s : str) (evs : list event) : list event :=
  match s with
  | [] => evs
  | _ => match evs with EvChars s' :: r => EvChars (s ++ s') :: r | _ => EvChars s :: evs end
  end.
Fixpoint coalesce (evs : list event) : list event :=
  match evs with
  | [] => []
  | EvChars s :: r => cons_chars (filter is_character s) (coalesce r)
  | EvStart n a anc :: r => EvStart n (map (fun kv => (fst kv, filter is_character (snd kv))) a) anc :: coalesce r
  | e :: r => e :: coalesce r
  end.

(** [whites cs cs']: [cs'] is [cs] with calls added that write white space. *)
Inductive whites : list wcall -> list wcall -> Prop :=
| wh_nil : whites [] []
| wh_same c cs cs' : whites cs cs' -> whites (c :: cs) (c :: cs')
| wh_add w cs cs' : blank w -> whites cs cs' -> whites cs (CText w :: cs').

(** ** Names with prefixes *)
Definition prefixed (mapping : dict (str * str)) (key local : str) : str :=
  match dict_get mapping key with
  | Some (_, p) => match p with [] => local | _ => p ++ lit ":" ++ local end
  | None => local
  end.
Definition declared (prefixes : dict str) : dict str :=
  map (fun kv => (match fst kv with [] => lit "xmlns" | k => lit "xmlns:" ++ k end, snd kv)) prefixes.
Definition prefix_attrs (mapping : dict (str * str)) (a : dict str) : dict str :=
  map (fun kv => (prefixed mapping (lit "@" ++ fst kv) (fst kv), snd kv)) a.

(** The calls with prefixed names, and with the declarations as the first attributes of the first
    start tag. *)
Fixpoint with_prefixes (decls : dict str) (mapping : dict (str * str)) (cs : list wcall) : list wcall :=
  match cs with
  | [] => []
  | CStart n a e :: r => CStart (prefixed mapping n n) (decls ++ prefix_attrs mapping a) e :: with_prefixes [] mapping r
  | CEnd n :: r => CEnd (prefixed mapping n n) :: with_prefixes decls mapping r
  | CText s :: r => CText s :: with_prefixes decls mapping r
  end.

(** ** The layout of indented output *)

(** Nesting level after the calls [cs], from level [d]. *)
Fixpoint level (d : Z) (cs : list wcall) : Z :=
  match cs with
  | [] => d
  | CStart _ _ false :: r => level (d + 1) r
  | CEnd _ :: r => level (d - 1) r
  | _ :: r => level d r
  end.

(** Since the last start tag there was at most text, and that start tag has to be closed. *)
Definition just_opened (cs : list wcall) : Prop :=
  exists pre n a texts, cs = pre ++ CStart n a false :: map CText texts.

(** A new line indented to level [k]; none for a negative [k]. *)
Definition new_line (indent : str) (k : Z) : str := c_nl :: concat (repeat indent (Z.to_nat k)).

(** What is written before and after the call [c], made after the calls [cs]. *)
Definition break_before (indent : str) (d : Z) (cs : list wcall) (c : wcall) (w : str) : Prop :=
  match c with
  | CStart _ _ _ => just_opened cs /\ w = new_line indent (level d cs) \/ ~ just_opened cs /\ w = []
  | _ => w = []
  end.
Definition break_after (indent : str) (d : Z) (cs : list wcall) (c : wcall) : str :=
  match c with
  | CStart _ _ true | CEnd _ => new_line indent (level d cs)
  | _ => []
  end.
