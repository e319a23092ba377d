(** Model of pylib/uxml/parser.py: [handle_cdata], the [parser] coroutine and the
    two module level drivers [parse] and [parsefrags].

    Simplifications, for the whole file:
    - exception messages are dropped, only the kind of exception is kept;
    - [element_stack] is kept innermost element first ([element_stack.copy()] is
      therefore [rev stack]);
    - the locals [advpos], [backtrackpos], [newpos], [aname], [openattr] never
      survive an iteration of the inner loop and are let-bound;
    - [handler.send] is assumed to return (the events it receives are listed). *)
From Verif Require Import PyStr CharClass.
Local Open Scope N_scope.

(** parser.py 26-29 [event] and the tuples sent at 232, 238, 304. *)
Inductive event :=
| EvStart (name : str) (attrs : dict str) (ancestors : list str)
| EvEnd (name : str) (ancestors : list str)
| EvChars (text : str).

(** Exceptions that can leave [parser.send].  The first seven are the
    RuntimeErrors raised at lines 107, 111, 124, 237, 249, 276, 328. *)
Inductive exn :=
| RtBadCharRef
| RtIllegalInCharRef
| RtUnknownRef
| RtExpectedClose
| RtExpectedGt
| RtExpectedEq
| RtJunk
| ValueErr      (* int('', 16), or chr(n) with 0x110000 <= n <= 0x7fffffff: line 105 *)
| OverflowErr   (* chr(n) with n >= 0x80000000: line 105 *)
| IndexErr      (* element_stack.pop() line 235, window[pos] line 282 *)
| StopIter.     (* send to a finished generator *)

(** Position of the first character at or after [pos] that does not satisfy [p];
    the length of the window if there is none.  Models the loops
    [while pat.match(window[i]): i += 1] (87, 203, 254) and
    [while window[pos] in ' \r\n\t': pos += 1] (168, 186, 215, 266, 317); these
    raise IndexError exactly when the result is the window length. *)
Fixpoint span_len (p : chr -> bool) (s : str) : nat :=
  match s with
  | [] => O
  | c :: s' => if p c then S (span_len p s') else O
  end.
Definition scan (p : chr -> bool) (window : str) (pos : nat) : nat :=
  (pos + span_len p (skipn pos window))%nat.

(** [window[i:j]] for 0 <= i <= j *)
Definition slice (window : str) (i j : nat) : str := firstn (j - i) (skipn i window).

(** [int(s, 16)] for a string of hexadecimal digits (105); [None] on the empty
    string, where Python raises ValueError. *)
Definition hex_digit (c : chr) : N :=
  if in_range c 0x30 0x39 then c - 0x30
  else if in_range c 0x41 0x46 then c - 0x41 + 10
  else c - 0x61 + 10.
Definition hex_value (s : str) : N := fold_left (fun a c => a * 16 + hex_digit c) s 0.
Definition int16 (s : str) : option N := match s with [] => None | _ => Some (hex_value s) end.

(** parser.py 72 CHARNAMES *)
Definition charnames : list (str * chr) :=
  [(lit "lt", c_lt); (lit "gt", c_gt); (lit "amp", c_amp); (lit "quot", c_dq); (lit "apos", c_sq)].
Fixpoint lookup_charname (l : list (str * chr)) (n : str) : option chr :=
  match l with
  | [] => None
  | (cn, c) :: l' => if str_eqb n cn then Some c else lookup_charname l' n
  end.

(** Result of [handle_cdata]: a string and the position of the stop character,
    "more input needed" ([(None, cursor)], the cursor is never used by the
    callers), an exception, or out of fuel (never happens, see ParserFacts). *)
Inductive cdres :=
| CDone (cdata : str) (cursor : nat)
| CNeed
| CRaise (e : exn)
| CFuel.

(** The result of reading the rest of a reference whose '&' has been read and
    where [start] is the position just after it (parser.py 97-127). *)
Inductive refres :=
| RefOk (c : chr) (cursor : nat)   (* cursor at the ';' *)
| RefNeed
| RefRaise (e : exn).

(** parser.py 99-111, [start] just after "#x" *)
Definition read_hexref (window : str) (start : nat) : refres :=
  let cursor := scan is_hex window start in
  match nth_error window cursor with
  | None => RefNeed
  | Some c =>
      if c =? c_semi then
        match int16 (slice window start cursor) with
        | None => RefRaise ValueErr
        | Some n =>
            if 0x80000000 <=? n then RefRaise OverflowErr
            else if 0x110000 <=? n then RefRaise ValueErr
            else if is_character n then RefOk n cursor else RefRaise RtBadCharRef
        end
      else RefRaise RtIllegalInCharRef
  end.

(** parser.py 113-127.  The [else] at 126-127 calls [.format] with one argument
    on a template with two fields: that raises IndexError, which the handler at
    131 turns into "more input needed". *)
Definition read_namedref (window : str) (start : nat) : refres :=
  let cursor := scan is_alnum window start in
  match nth_error window cursor with
  | None => RefNeed
  | Some c =>
      if c =? c_semi then
        match lookup_charname charnames (slice window start cursor) with
        | Some r => RefOk r cursor
        | None => RefRaise RtUnknownRef
        end
      else RefNeed
  end.

(** parser.py 97-127; [and] at 98 evaluates [window[cursor + 1]] only after '#'. *)
Definition read_ref (window : str) (start : nat) : refres :=
  match nth_error window start with
  | None => RefNeed
  | Some c =>
      if c =? c_hash then
        match nth_error window (start + 1) with
        | None => RefNeed
        | Some c2 => if c2 =? c_x then read_hexref window (start + 2)
                     else read_namedref window start
        end
      else read_namedref window start
  end.

(** parser.py 86-130, one recursive call per iteration of the outer [while True];
    [start = cursor] at the head of every iteration.  A character that is neither
    in [charpat], nor a stop character, nor '&' is skipped (129-130 without
    appending anything). *)
Fixpoint cdata_loop (fuel : nat) (charpat : chr -> bool) (stopchars : str)
    (window : str) (cdata : str) (start : nat) : cdres :=
  match fuel with
  | O => CFuel
  | S fuel' =>
      let cursor := scan charpat window start in
      match nth_error window cursor with
      | None => CNeed
      | Some c =>
          let cdata' := cdata ++ slice window start cursor in
          if char_in c stopchars then CDone cdata' cursor
          else if c =? c_amp then
            match read_ref window (cursor + 1) with
            | RefNeed => CNeed
            | RefRaise e => CRaise e
            | RefOk r cursor' =>
                cdata_loop fuel' charpat stopchars window (cdata' ++ [r]) (cursor' + 1)
            end
          else cdata_loop fuel' charpat stopchars window cdata' (cursor + 1)
      end
  end.

(** parser.py 76-132 *)
Definition handle_cdata (pos : nat) (window : str) (charpat : chr -> bool) (stopchars : str) : cdres :=
  cdata_loop (S (length window)) charpat stopchars window [] pos.

(** parser.py 15-23 [state]; [tag_gi] is never used. *)
Inductive pstate :=
| PreElement | InElement | PreTagGi | PreCompleteTagGi | CompleteTag | CompleteDoc | Attribute.

(** [pending_event] (183, 194): start or end of an element *)
Inductive pend_ev := PendStart | PendEnd.

(** The variables of the coroutine that survive an iteration (144-151, 183, 209).
    [wlen] is always [len(window)].  [gi] and [pending_event] are unbound in
    Python until line 183/209; they are only read after that. *)
Record pst := mkP {
  window : str;
  pos : nat;
  cstate : pstate;
  gi : str;
  pend : pend_ev;
  stack : list str;
  attribs : dict str }.

Definition init_pst : pst := mkP [] 0 PreElement [] PendStart [] [].

(** How a part of the body of the inner loop (164-328) ends, with the events sent. *)
Inductive flow (S : Type) :=
| Fall (s : S) (evs : list event)    (* control reaches the next part *)
| Again (s : S) (evs : list event)   (* [continue] with need_input still False *)
| Need (s : S) (evs : list event)    (* [continue] with need_input set *)
| Break (s : S) (evs : list event)   (* [break] *)
| Raise (e : exn) (evs : list event).
Arguments Fall {S}. Arguments Again {S}. Arguments Need {S}. Arguments Break {S}.
Arguments Raise {S}.

Definition flow_prepend {S} (evs : list event) (f : flow S) : flow S :=
  match f with
  | Fall s e => Fall s (evs ++ e)
  | Again s e => Again s (evs ++ e)
  | Need s e => Need s (evs ++ e)
  | Break s e => Break s (evs ++ e)
  | Raise x e => Raise x (evs ++ e)
  end.
Definition and_then {S} (f : flow S) (k : S -> flow S) : flow S :=
  match f with
  | Fall s e => flow_prepend e (k s)
  | other => other
  end.

(** [if not done: need_input = True] followed by [continue]
    (171-172, 189-190, 206-207, 218-219, 257-259, 269-271, 289-291, 300-302, 320-321) *)
Definition need_or_again (done : bool) (s : pst) : flow pst :=
  if done then Again s [] else Need s [].

Definition set_pos (s : pst) (p : nat) : pst :=
  mkP (window s) p (cstate s) (gi s) (pend s) (stack s) (attribs s).
Definition set_state (s : pst) (c : pstate) : pst :=
  mkP (window s) (pos s) c (gi s) (pend s) (stack s) (attribs s).
Definition set_pend (s : pst) (p : pend_ev) : pst :=
  mkP (window s) (pos s) (cstate s) (gi s) p (stack s) (attribs s).
Definition set_gi (s : pst) (g : str) : pst :=
  mkP (window s) (pos s) (cstate s) g (pend s) (stack s) (attribs s).
Definition set_stack (s : pst) (k : list str) : pst :=
  mkP (window s) (pos s) (cstate s) (gi s) (pend s) k (attribs s).
Definition set_attribs (s : pst) (a : dict str) : pst :=
  mkP (window s) (pos s) (cstate s) (gi s) (pend s) (stack s) a.

(** parser.py 165-181 *)
Definition sec_pre_element (done : bool) (s : pst) : flow pst :=
  match cstate s with
  | PreElement =>
      let p := scan is_ws (window s) (pos s) in
      match nth_error (window s) p with
      | None => need_or_again done (set_pos s p)
      | Some c =>
          if c =? c_lt then Fall (set_state (set_pos s (p + 1)) PreTagGi) []
          else Fall (set_pos s p) []
      end
  | _ => Fall s []
  end.

(** parser.py 185-211, after [pending_event] has been set *)
Definition tag_body (done : bool) (s : pst) : flow pst :=
  let p := scan is_ws (window s) (pos s) in
  match nth_error (window s) p with
  | None => need_or_again done (set_pos s p)
  | Some c =>
      if (match cstate s with PreTagGi => true | _ => false end) && (c =? c_slash) then
        Again (set_pend (set_state (set_pos s (p + 1)) PreCompleteTagGi) PendEnd) []
      else
        let adv := if is_namestart c then scan is_namechar (window s) (p + 1) else p in
        match nth_error (window s) adv with
        | None => need_or_again done (set_pos s p)
        | Some _ =>
            Fall (set_state (set_pos (set_gi s (slice (window s) p adv)) adv) CompleteTag) []
        end
  end.

(** parser.py 182-211 *)
Definition sec_tag (done : bool) (s : pst) : flow pst :=
  match cstate s with
  | PreTagGi => tag_body done (set_pend s PendStart)
  | PreCompleteTagGi => tag_body done (set_pend s PendEnd)
  | _ => Fall s []
  end.

(** parser.py 241-247: what happens after a '>' *)
Definition after_gt (done : bool) (s : pst) (evs : list event) : flow pst :=
  if Nat.eqb (pos s) (length (window s))
  then (if done then Break s evs else Need s evs)
  else Fall s evs.

(** parser.py 212-249 *)
Definition sec_complete_tag (done : bool) (s : pst) : flow pst :=
  match cstate s with
  | CompleteTag =>
      let p := scan is_ws (window s) (pos s) in
      match nth_error (window s) p with
      | None => need_or_again done (set_pos s p)
      | Some c =>
          if (match pend s with PendStart => true | PendEnd => false end) && is_namestart c then
            Again (set_state (set_pos s p) Attribute) []
          else if c =? c_gt then
            let s1 := set_attribs (set_state (set_pos s (p + 1)) InElement) [] in
            match pend s with
            | PendStart =>
                after_gt done (set_stack s1 (gi s :: stack s))
                  [EvStart (gi s) (attribs s) (rev (stack s))]
            | PendEnd =>
                match stack s with
                | [] => Raise IndexErr []
                | opened :: rest =>
                    if str_eqb opened (gi s) then
                      after_gt done
                        (set_stack (match rest with [] => set_state s1 CompleteDoc | _ => s1 end) rest)
                        [EvEnd (gi s) (rev rest)]
                    else Raise RtExpectedClose []
                end
            end
          else Raise RtExpectedGt []
      end
  | _ => Fall s []
  end.

(** parser.py 284: the pattern for a quote character *)
Definition attr_pat (q : chr) : chr -> bool :=
  if q =? c_sq then is_attr_sgl else is_attr_dbl.

(** parser.py 250-296.  When the character after '=' is not a quote (282) nothing
    else happens: the position stays there and the state stays [attribute]. *)
Definition sec_attribute (done : bool) (s : pst) : flow pst :=
  match cstate s with
  | Attribute =>
      let adv := scan is_namechar (window s) (pos s + 1) in
      match nth_error (window s) adv with
      | None => need_or_again done s
      | Some _ =>
          let aname := slice (window s) (pos s) adv in
          let p := scan is_ws (window s) adv in
          match nth_error (window s) p with
          | None => need_or_again done s
          | Some c =>
              if c =? c_eq then
                let p1 := (p + 1)%nat in
                if negb done && Nat.eqb p1 (length (window s)) then Need s []
                else
                  match nth_error (window s) p1 with
                  | None => Raise IndexErr []
                  | Some q =>
                      if is_quote q then
                        match handle_cdata (p1 + 1) (window s) (attr_pat q) [q] with
                        | CNeed => need_or_again done (set_pos s p1)
                        | CRaise e => Raise e []
                        | CDone aval newpos =>
                            Fall (set_state (set_attribs (set_pos s (newpos + 1))
                                    (dict_set (attribs s) aname aval)) CompleteTag) []
                        | CFuel => Raise StopIter [] (* unreachable: ParserFacts *)
                        end
                      else Fall (set_pos s p1) []
                  end
              else Raise RtExpectedEq []
          end
      end
  | _ => Fall s []
  end.

(** parser.py 297-311.  [handle_cdata] stops at a '<', so the test at 305 succeeds. *)
Definition sec_in_element (done : bool) (s : pst) : flow pst :=
  match cstate s with
  | InElement =>
      match handle_cdata (pos s) (window s) is_datachar [c_lt] with
      | CNeed => need_or_again done s
      | CRaise e => Raise e []
      | CDone chars newpos =>
          let evs := match chars with [] => [] | _ => [EvChars chars] end in
          match nth_error (window s) newpos with
          | None => Raise IndexErr evs
          | Some c =>
              Fall (set_state (set_pos s (if c =? c_lt then newpos + 1 else newpos)) PreTagGi) evs
          end
      | CFuel => Raise StopIter [] (* unreachable: ParserFacts *)
      end
  | _ => Fall s []
  end.

(** parser.py 312-328.  After the white space loop [pos == wlen] cannot hold
    (the loop would have raised IndexError), so 325-326 is never taken. *)
Definition sec_complete_doc (done : bool) (s : pst) : flow pst :=
  match cstate s with
  | CompleteDoc =>
      if Nat.eqb (pos s) (length (window s)) then Break s []
      else
        let p := scan is_ws (window s) (pos s) in
        match nth_error (window s) p with
        | None => need_or_again done (set_pos s p)
        | Some _ => Raise RtJunk []
        end
  | _ => Fall s []
  end.

(** One iteration of the inner loop, parser.py 165-328. *)
Definition iter (done : bool) (s : pst) : flow pst :=
  and_then (sec_pre_element done s) (fun s =>
  and_then (sec_tag done s) (fun s =>
  and_then (sec_complete_tag done s) (fun s =>
  and_then (sec_attribute done s) (fun s =>
  and_then (sec_in_element done s) (fun s =>
  sec_complete_doc done s))))).

(** The inner loop [while not need_input] (164-328) for a given body.  [LStop]
    covers both ways of leaving it normally. *)
Inductive lres (S : Type) :=
| LStop (s : S) (evs : list event)
| LRaise (e : exn) (evs : list event)
| LHang (evs : list event).             (* out of fuel *)
Arguments LStop {S}. Arguments LRaise {S}. Arguments LHang {S}.

Definition lprepend {S} (evs : list event) (r : lres S) : lres S :=
  match r with
  | LStop s e => LStop s (evs ++ e)
  | LRaise x e => LRaise x (evs ++ e)
  | LHang e => LHang (evs ++ e)
  end.

Fixpoint run_loop {S} (body : S -> flow S) (fuel : nat) (s : S) : lres S :=
  match fuel with
  | O => LHang []
  | Datatypes.S fuel' =>
      match body s with
      | Fall s' evs | Again s' evs => lprepend evs (run_loop body fuel' s')
      | Need s' evs | Break s' evs => LStop s' evs
      | Raise e evs => LRaise e evs
      end
  end.

Definition loop (fuel : nat) (done : bool) (s : pst) : lres pst := run_loop (iter done) fuel s.

(** Enough iterations for every terminating run (ParserFacts). *)
Definition enough (s : pst) : nat := (4 + 4 * (length (window s) - pos s))%nat.

(** The suspended coroutine: waiting at line 156, waiting at line 331, or finished. *)
Inductive pgen :=
| GRun (s : pst)
| GFinal
| GDead.

(** A freshly created (and primed) parser, 138-152. *)
Definition new_parser : pgen := GRun init_pst.

(** Result of [p.send((frag, done))]: returns, raises, or never returns; with the
    events sent to the handler meanwhile. *)
Inductive sres :=
| SOk (g : pgen) (evs : list event)
| SRaise (e : exn) (evs : list event)
| SHang (evs : list event).

(** [p.send((frag, done))], parser.py 154-331 *)
Definition send (g : pgen) (frag : str) (done : bool) : sres :=
  match g with
  | GRun s =>
      match frag with
      | [] => SOk (if done then GFinal else g) []
      | _ =>
          let s1 := mkP (window s ++ frag) (pos s) (cstate s) (gi s) (pend s) (stack s) (attribs s) in
          match loop (enough s1) done s1 with
          | LStop s' evs => SOk (if done then GFinal else GRun s') evs
          | LRaise e evs => SRaise e evs
          | LHang evs => SHang evs
          end
      end
  | GFinal => SRaise StopIter []
  | GDead => SRaise StopIter []
  end.

(** A client that sends a sequence of (fragment, done) pairs and stops at the first
    exception: all events received and how it ended. *)
Inductive outcome :=
| Suspended (g : pgen)
| Raised (e : exn)
| Hung.

Fixpoint sends (g : pgen) (l : list (str * bool)) : list event * outcome :=
  match l with
  | [] => ([], Suspended g)
  | (frag, done) :: l' =>
      match send g frag done with
      | SOk g' evs => let (evs', o) := sends g' l' in (evs ++ evs', o)
      | SRaise e evs => (evs, Raised e)
      | SHang evs => (evs, Hung)
      end
  end.

(** Feeding fragments with more to come. *)
Definition feed (frags : list str) : list event * outcome :=
  sends new_parser (map (fun f => (f, false)) frags).

(** The [handler] generator (346-351) as a value: not yet started, or suspended at
    its [yield] (349); the argument is what [accumulator] holds. *)
Inductive hgen := HNew (acc : list (option event)) | HWait (acc : list (option event)).

(** [h.send(v)] ([next(h)] is [h.send(None)]).  Starting the generator runs to the
    first [yield]; later the sent value is appended (350) and the loop comes round. *)
Definition h_send (h : hgen) (v : option event) : hgen :=
  match h with
  | HNew acc => HWait acc
  | HWait acc => HWait (acc ++ [v])
  end.

(** [handler([])] (347, 357): the [coroutine] decorator on 346 is [amara3.util.coroutine]
    (imported at parser.py 13, not part of /repo); it calls [next] once on the new generator. *)
Definition new_handler : hgen := h_send (HNew []) None.

(** The accumulator after [p = parser(h)], which runs line 140 [next(handler)], and
    the [handler.send] calls for [evs]. *)
Definition h_items (h : hgen) : list (option event) := match h with HNew acc | HWait acc => acc end.
Definition accumulated (evs : list event) : list (option event) :=
  h_items (fold_left h_send (map Some evs) (h_send new_handler None)).

(** The items yielded by [parse(text)] (354-362): all of them on normal return;
    [None] if an exception escapes or the call never returns. *)
Definition py_parse (text : str) : option (list (option event)) :=
  match sends new_parser [(text, true)] with
  | (evs, Suspended _) => Some (accumulated evs)
  | _ => None
  end.

(** [parsefrags(textfrags)] (365-376) *)
Definition py_parsefrags (frags : list str) : option (list (option event)) :=
  match sends new_parser (map (fun f => (f, false)) frags ++ [([], true)]) with
  | (evs, Suspended _) => Some (accumulated evs)
  | _ => None
  end.
