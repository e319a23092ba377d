(** Property C117: queries with functions given by the caller. *)
From Verif Require Import PyStr XTree Path XPath XPathSpec XFuncs XFuncsSpec XFuncsFacts.

(** ** C117 *)
(** An empty mapping: the built-in functions. *)
Theorem C117_default w n e c : eval_with w [] n e c = eval w n e c.
Proof. exact (f_equal (fun f => f e c) (default_eval w n)). Qed.
Print Assumptions C117_default.
(** A function of the mapping gets its arguments and decides the result, also in the place of a built-in one. *)
Theorem C117_own w fs n f g l c : dict_get fs f = Some (Own g) ->
  eval_with w fs n (ECall f l) c = g (map (fun x => (x, eval_with w fs n x)) l) c.
Proof. exact (eval_own w fs n f g l c). Qed.
Print Assumptions C117_own.
(** The mapping replaces the built-in functions. *)
Theorem C117_replaced w fs n f l c : fs <> [] -> dict_get fs f = None -> eval_with w fs n (ECall f l) c = ([], Exn RuntimeErr).
Proof. exact (eval_unknown w fs n f l c). Qed.
Print Assumptions C117_replaced.
(** Only the meaning of the names that are called counts (of any names if texts are evaluated). *)
Theorem C117_names w fs fs' (ok : str -> Prop) n e c :
  (forall f, ok f -> meaning fs f = meaning fs' f /\ fair (meaning fs f)) ->
  (evaluates_texts fs ok -> forall s e, xparse w s = inl e -> Forall ok (called e)) ->
  Forall ok (called e) -> eval_with w fs n e c = eval_with w fs' n e c.
Proof. intros Hm Ht. exact (eval_agree w fs fs' ok Hm Ht n e c). Qed.
Print Assumptions C117_names.
Theorem C117_no_calls w fs n e c : called e = [] -> eval_with w fs n e c = eval w n e c.
Proof. exact (eval_no_calls w fs n e c). Qed.
Print Assumptions C117_no_calls.
(** A mapping that has the built-in functions as well. *)
Theorem C117_extended w fs n e c : (forall f, In f (map fst builtins) -> dict_get fs f = Some (Builtin f)) ->
  Forall (fun f => In f (map fst builtins)) (called e) ->
  (In (lit "for-each") (called e) -> forall s e', xparse w s = inl e' -> Forall (fun f => In f (map fst builtins)) (called e')) ->
  eval_with w fs n e c = eval w n e c.
Proof. exact (eval_extended w fs n e c). Qed.
Print Assumptions C117_extended.

(** <a><b/><b/></a>, and a function twice() that yields its argument twice. *)
Definition c117_env : env := mkEnv (XE (lit "a") [] [XE (lit "b") [] []; XE (lit "b") [] []]) [] (fun _ => inr RuntimeErr) (fun _ => None) (fun _ => []).
Definition twice : own_function := fun args c => match args with [(_, x)] => seq2 (x c) (x c) | _ => raise TypeErr end.
Definition b_ : expr := EStep AxChild (TName (lit "b")).
Example C117_case :
  let plus := (lit "twice", Own twice) :: map (fun kv => (fst kv, Builtin (fst kv))) builtins in
  (forall f, In f (map fst builtins) -> dict_get plus f = Some (Builtin f)) /\ extensional twice /\
  eval_with c117_env [(lit "twice", Own twice)] 0 (ECall (lit "twice") [b_]) (INode []) = ([INode [0]; INode [1]; INode [0]; INode [1]], Done) /\
  eval_with c117_env plus 0 (ECall (lit "count") [ECall (lit "twice") [b_]]) (INode []) = ([IInt 4], Done) /\
  called (ECall (lit "count") [ECall (lit "twice") [b_]]) = [lit "count"; lit "twice"].
Proof.
  cbn zeta. split; [|split; [|vm_compute; repeat split; reflexivity]].
  - intros f Hf. cbn in Hf. repeat (destruct Hf as [<-|Hf]; [vm_compute; reflexivity|]). destruct Hf.
  - intros args args' c H. destruct H as [|[x f] [x' f'] l l' [E K] H]; [reflexivity|]. destruct H; [|reflexivity].
    cbn [fst snd] in K. unfold twice. rewrite K. reflexivity.
Qed.
(** What one expects of [funcs={'twice': twice}]: that built-in functions stay available. *)
Theorem C117_added_refuted : exists w fs n e c, fs <> [] /\ called e = [lit "count"] /\ eval w n e c = ([IInt 2], Done) /\
  eval_with w fs n e c = ([], Exn RuntimeErr).
Proof.
  exists c117_env, [(lit "twice", Own twice)], 0%nat, (ECall (lit "count") [b_]), (INode []).
  split; [discriminate|]. split; [reflexivity|]. split; vm_compute; reflexivity.
Qed.
Print Assumptions C117_added_refuted.
