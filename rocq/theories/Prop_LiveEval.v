(** Queries over trees that are edited meanwhile, the whole expression language: C137. *)
From Verif Require Import PyStr Parser XTree Heap Builder HeapSpec HeapFacts BuilderMore RootCache DocOrder XPath XQuery HeapNav HeapEval HeapEvalFuel HeapQuery.
From Verif Require Import LivePathCut LiveEval LiveEvalSpec LiveEvalFacts LiveEvalStart LiveEvalLoops LiveEvalUp.
From Verif Require Import Prop_HeapNav Prop_HeapEval Prop_HeapQuery.

(** ** C137 *)
(** Without edits: what the suspended query delivers is what HeapQuery's functions give (C136). *)
Theorem C137_start w hv n h c v x :
  (forall p l f, obj_xpath h w hv c v n x p = (l, f) -> f <> Cut -> gcomes w hv (At h c v) (GAsk x p) l f) /\
  (forall e l f, heval h w hv c v n e x = (l, f) -> f <> Cut -> gcomes w hv (At h c v) (GStart e x) l f).
Proof.
  split; intros p l f E N.
  - pose proof (ask_says w hv n (At h c v) x p) as S. cbv zeta in S. cbn [mh mc mv] in S. rewrite E in S. apply says_comes; assumption.
  - pose proof (start_says w hv (At h c v) n p x) as S. cbn [mh mc mv] in S. rewrite E in S. apply says_comes; assumption.
Qed.
Print Assumptions C137_start.
(** What next() does, and what is still to come without edits, does not depend on the fuel. *)
Theorem C137_next w hv m g : (forall r r', gpulls w hv m g r -> gpulls w hv m g r' -> r = r') /\
  (forall l f l' f', gcomes w hv m g l f -> gcomes w hv m g l' f' -> l' = l /\ f' = f).
Proof. split; [exact (gpulls_det w hv m g)|]. intros l f l' f' C C'. exact (gcomes_det w hv m g l f C l' f' C'). Qed.
Print Assumptions C137_next.
(** More fuel continues an evaluation. *)
Theorem C137_fuel h w hv c v n n' e x : n <= n' ->
  let (l, f) := heval h w hv c v n e x in
  match f with Cut => exists more, fst (heval h w hv c v n' e x) = l ++ more | _ => heval h w hv c v n' e x = (l, f) end.
Proof.
  intros H. pose proof (heval_continues h w hv c v n n' H e x) as K. destruct (heval h w hv c v n e x) as [l f]. destruct K as [[N E]|[E M]]; cbn [fst snd] in *; [destruct f; congruence|subst; exact M].
Qed.
Print Assumptions C137_fuel.
(** Unions, comparisons, arithmetic and all functions but for-each: once the first result has been
    delivered the others are fixed, whatever happens. *)
Theorem C137_snapshot w hv m e x y out m' g' : eager e = true -> gloop w hv whatever m (GStart e x) (y :: out) m' g' ->
  exists rest f, gcomes w hv m (GStart e x) (y :: out ++ rest) f /\ gcomes w hv m' g' rest f.
Proof. exact (snapshot w hv m e x y out m' g'). Qed.
Print Assumptions C137_snapshot.
(** [for y in r.xml_xpath('b | d'): y.xml_parent.xml_remove(y)] takes out all of them. *)
Theorem C137_union_cut w hv m e x l is : eager e = true -> well_linked (mh m) -> gcomes w hv m (GStart e x) l Done -> Forall2 is_ref l is -> NoDup is ->
  (forall i, In i is -> is_elem (mh m) i /\ exists p, parent_is (mh m) i (Some p)) ->
  (exists m' g', gloop w hv takes_out m (GStart e x) l m' g' /\ gpulls w hv m' g' Ended) /\
  forall out m' g' y i, gloop w hv takes_out m (GStart e x) out m' g' -> In y out -> is_ref y i -> parent_is (mh m') i None.
Proof. exact (take_eager w hv m e x l is). Qed.
Print Assumptions C137_union_cut.
(** With a number as its first predicate an expression has at most one result, whatever happens. *)
Theorem C137_position w hv m e z ps x out m' g' : gloop w hv whatever m (GStart (EPred e (ELit (LInt z) :: ps)) x) out m' g' -> length out <= 1.
Proof. exact (one_result w hv m e z ps x out m' g'). Qed.
Print Assumptions C137_position.
(** [ancestor::t]: as long as the elements above keep their names and parents, the loop visits them
    upwards, then a root node; whatever else is edited, and whatever the root node is by then. *)
Theorem C137_up w hv t x o l m out m' g' : above (mh m) (hparent (mh m) x) l -> (forall i, In i l -> ename (mh m) i <> None) ->
  gloop w hv (keeps_up l) m (GStart (EStep AxAncestor t) (Obj x o)) out m' g' ->
  let up := map (fun i => Obj (HNode i) o) (filter (by_name t (mh m)) l) in
  (exists rest, up = out ++ rest /\
     match rest with
     | y :: _ => exists g1, gpulls w hv m' g' (Given y g1)
     | [] => forall q f, hroot (mh m') (mc m' (Obj x o)) x = ([HRoot q], f) -> exists g1, gpulls w hv m' g' (Given (Obj (HRoot q) o) g1)
     end) \/
  (exists q, out = up ++ [Obj (HRoot q) o] /\ gpulls w hv m' g' Ended).
Proof. exact (up_start w hv t x o l m out m' g'). Qed.
Print Assumptions C137_up.
(** The parent of a result is looked up when the next one is asked for: if it has been taken out by
    then, what comes next is a root node, and after it nothing. *)
Theorem C137_up_cut w hv t r o m out m1 g1 i o' g2 m2 : well_linked (mh m) -> gloop w hv (fun _ _ m' => well_linked (mh m')) m (GStart (EStep AxAncestor t) (Obj (HNode r) o)) out m1 g1 ->
  gpulls w hv m1 g1 (Given (Obj (HNode i) o') g2) -> xml_parent (mh m2) i = None ->
  forall q f, hroot (mh m2) (mc m2 (Obj (HNode r) o)) (HNode r) = ([HRoot q], f) -> exists g3, gpulls w hv m2 g2 (Given (Obj (HRoot q) o) g3) /\ forall m3, gpulls w hv m3 g3 Ended.
Proof. exact (up_cut w hv t r o m out m1 g1 i o' g2 m2). Qed.
Print Assumptions C137_up_cut.
(** [for a in r.xml_xpath('@*')]: after the element has got another number of attributes next() raises
    RuntimeError, even if all of them have been delivered. *)
Theorem C137_attr_resized w hv t r o body m y g1 m1 out m' g' : gpulls w hv m (GStart (EStep AxAttribute t) (Obj (HNode r) o)) (Given y g1) -> gloop w hv body m1 g1 out m' g' ->
  length (attrs_of (mh m') r) <> length (attrs_of (mh m) r) -> gpulls w hv m' g' (Failed RuntimeErr).
Proof. exact (attr_resized w hv t r o body m y g1 m1 out m' g'). Qed.
Print Assumptions C137_attr_resized.
(** Setting attributes that are there does not disturb the loop, and the values are those of the time. *)
Theorem C137_attr_set w hv t r o m out m' g' : helem (mh m) r = true -> gloop w hv (sets_values r) m (GStart (EStep AxAttribute t) (Obj (HNode r) o)) out m' g' ->
  exists rest, map Some (filter (wanted t) (map fst (attrs_of (mh m) r))) = map attr_name out ++ map Some rest /\
    match rest with [] => gpulls w hv m' g' Ended | k :: _ => exists v g1, In (k, v) (attrs_of (mh m') r) /\ gpulls w hv m' g' (Given (Obj (HAttr r k v) Made) g1) end.
Proof. exact (attr_values w hv t r o m out m' g'). Qed.
Print Assumptions C137_attr_set.
(** So the loop that takes out each attribute it comes to stops at the second next(). *)
Theorem C137_attr_del_refuted : exists w hv m r o y g1 h', well_linked (mh m) /\ map fst (attrs_of (mh m) r) = [lit "x"; lit "y"] /\
  gpulls w hv m (GStart (EStep AxAttribute TStar) (Obj (HNode r) o)) (Given y g1) /\ attr_name y = Some (lit "x") /\ attrs_of h' r = filter (fun kv => negb (str_eqb (fst kv) (lit "x"))) (attrs_of (mh m) r) /\
  gpulls w hv (At h' (mc m) (mv m)) g1 (Failed RuntimeErr).
Proof.
  pose (two := [(lit "x", lit "1"); (lit "y", lit "2")]). pose (h := fst (alloc empty_heap (OElem (lit "a") two [] None))).
  exists w136, [], (At h (fun _ => empty_cache) (fun _ => no_numbers)), 0, Made. eexists _, _, (fst (alloc empty_heap (OElem (lit "a") [(lit "y", lit "2")] [] None))).
  split; [apply editing_well_linked; eapply eds_cons; [apply (ed_new_elem empty_heap (lit "a") two)|constructor]|]. split; [reflexivity|]. split; [exists 5; vm_compute; reflexivity|]. split; [reflexivity|]. split; [reflexivity|]. exists 5. vm_compute. reflexivity.
Qed.
Print Assumptions C137_attr_del_refuted.
(** [<a>t<b><c></c></b>t<d></d></a>] (C131): [b | d] at [a], [*[2]], [ancestor::node()] and [ancestor::a] at [c]. *)
Definition m137 : moment := At e131 (fun _ => empty_cache) v133.
Definition u137 : expr := EBin (EStep AxChild (TName (lit "b"))) OpUnion (EStep AxChild (TName (lit "d"))).
Definition cut137 (m : moment) (p i : ref) : moment := match xml_remove (mh m) p (ARef i) with EOk h => At h (mc m) (mv m) | _ => m end.
Example C137_case : well_linked (mh m137) /\ eager u137 = true /\
  gcomes w136 hv136 m137 (GStart u137 (Obj (HNode 0) Made)) [Obj (HNode 1) Made; Obj (HNode 3) Made] Done /\
  (forall i, In i [1; 3] -> is_elem e131 i /\ exists p, parent_is e131 i (Some p)) /\
  gcomes w136 hv136 m137 (GAsk (Obj (HNode 1) Made) (Text (lit "../*[2]"))) [Obj (HNode 3) Made] Done /\
  above e131 (hparent e131 (HNode 2)) [1; 0] /\ map (ename e131) [1; 0] = [Some (lit "b"); Some (lit "a")] /\
  filter (by_name TNode e131) [1; 0] = [1; 0] /\ filter (by_name (TName (lit "a")) e131) [1; 0] = [0] /\
  exists g2 g3 q g4, gpulls w136 hv136 m137 (GStart (EStep AxAncestor TNode) (Obj (HNode 2) Made)) (Given (Obj (HNode 1) Made) g2) /\
    takes_out m137 (Obj (HNode 1) Made) (cut137 m137 0 1) /\ well_linked (mh (cut137 m137 0 1)) /\ xml_parent (mh (cut137 m137 0 1)) 1 = None /\
    gpulls w136 hv136 (cut137 m137 0 1) g2 (Given (Obj (HRoot q) Made) g3) /\ docelem q = 1 /\
    gpulls w136 hv136 m137 g2 (Given (Obj (HNode 0) Made) g4).
Proof.
  pose proof (editing_well_linked _ e131_edits) as W. split; [exact W|]. split; [reflexivity|].
  split; [eapply (C137_start _ _ 20); [vm_compute; reflexivity|discriminate]|]. split.
  - intros i [<-|[<-|[]]]; (split; [do 4 eexists; vm_compute; reflexivity|]); eexists; eexists; split; vm_compute; reflexivity.
  - split; [eapply (C137_start _ _ 20); [vm_compute; reflexivity|discriminate]|]. split; [apply ab_up, ab_up, ab_top|]. split; [reflexivity|]. split; [reflexivity|]. split; [reflexivity|].
    eexists _, _, _, _. split; [exists 9; vm_compute; reflexivity|]. split; [exists 1, Made, 0; vm_compute; auto|]. split.
    { assert (Hi : is_elem e131 1) by (do 4 eexists; vm_compute; reflexivity). assert (Hp : parent_is e131 1 (Some 0)) by (eexists; split; vm_compute; reflexivity).
      destruct (cut_step e131 1 0 W Hi Hp) as (h1 & E & W1 & _). unfold cut137. cbn [mh m137]. rewrite E. exact W1. }
    split; [vm_compute; reflexivity|]. split; [exists 9; vm_compute; reflexivity|]. split; [reflexivity|]. exists 9. vm_compute. reflexivity.
Qed.
