(** Model of src/zm_graph.c and src/zm_graph_search.c.

    A graph is the list of its nodes, a node the identifier it carries and the list of
    its arcs (destination, cost), both in the order of zListForEach (tail to head, so
    zListInsertHead appends).  Simplifications: the user data of a node is a natural
    number compared by equality (graph->equal, graph->dup); a pointer to a node is
    written as the identifier of the node, which zGraphAddNode keeps unique; allocation
    always succeeds; warnings are not modelled.  HUGE_VAL is [None]. *)
From Verif Require Import Prelude Scalar.

Section Graph.
  Context {T : Type} {ST : Scalar T}.
  Local Open Scope S_scope.
  Local Notation arcs := (list (nat * T)).
  Local Notation graph := (list (nat * arcs)).

  (** zm_graph.c:71-79 *)
  Definition zGraphInit : graph := [].
  (** zm_graph.c:118-126; [None] is the NULL pointer *)
  Fixpoint zGraphFindNode (G : graph) (d : nat) : option (nat * arcs) :=
    match G with
    | [] => None
    | n :: G => if Nat.eqb (fst n) d then Some n else zGraphFindNode G d
    end.
  (** zm_graph.c:93-115 *)
  Definition zGraphAddNode (G : graph) (d : nat) : bool * graph :=
    match zGraphFindNode G d with Some _ => (true, G) | None => (true, G ++ [(d, [])]) end.
  (** zm_graph.c:23-41, on the arc list of [from] *)
  Fixpoint arc_set (l : arcs) (to : nat) (cost : T) : arcs :=
    match l with
    | [] => [(to, cost)]
    | a :: l => if Nat.eqb (fst a) to then (to, cost) :: l else a :: arc_set l to cost
    end.
  Fixpoint zGraphNodeConnect (G : graph) (from to : nat) (cost : T) : graph :=
    match G with
    | [] => []
    | n :: G => if Nat.eqb (fst n) from then (fst n, arc_set (snd n) to cost) :: G
                else n :: zGraphNodeConnect G from to cost
    end.
  (** zm_graph.c:44-48 *)
  Definition zGraphNodeBiconnect (G : graph) (n1 n2 : nat) (cost : T) : graph :=
    zGraphNodeConnect (zGraphNodeConnect G n1 n2 cost) n2 n1 cost.
  (** zm_graph.c:129-137, 140-148 *)
  Definition zGraphConnect (G : graph) (from to : nat) (cost : T) : bool * graph :=
    match zGraphFindNode G from, zGraphFindNode G to with
    | Some _, Some _ => (true, zGraphNodeConnect G from to cost)
    | _, _ => (false, G)
    end.
  Definition zGraphBiconnect (G : graph) (n1 n2 : nat) (cost : T) : bool * graph :=
    match zGraphFindNode G n1, zGraphFindNode G n2 with
    | Some _, Some _ => (true, zGraphNodeBiconnect G n1 n2 cost)
    | _, _ => (false, G)
    end.

  (** zm_graph.c:180-194 *)
  Definition zGraphNodeListAdd (l : list nat) (n : nat) : list nat :=
    if existsb (Nat.eqb n) l then l else l ++ [n].

  (** members val, hval, to of the nodes, and list_yet *)
  Record gst := { val : nat -> option T; hval : nat -> option T; gto : nat -> option nat; yet : list nat }.
  Definition fset {A} (f : nat -> A) (i : nat) (x : A) : nat -> A := fun j => if Nat.eqb j i then x else f j.
  (** x < y, y > x where either may be HUGE_VAL *)
  Definition lt_huge (x y : option T) : bool :=
    match x, y with Some x, Some y => slt x y | Some _, None => true | None, _ => false end.
  (** zm_graph_search.c:45-47 *)
  Fixpoint pick (l : list nat) (hv : nat -> option T) (cc : option nat) : option nat :=
    match l with
    | [] => cc
    | n :: l => pick l hv (match cc with None => Some n | Some c => if lt_huge (hv n) (hv c) then Some n else cc end)
    end.
  (** zListPurge; the list has no duplicate *)
  Definition purge (l : list nat) (n : nat) : list nat := filter (fun x => negb (Nat.eqb x n)) l.
  (** zm_graph_search.c:52-59 for one arc.  [h] is graph->h( . , s->data, util ).  A node
      in list_yet has a finite val; reading HUGE_VAL here is not modelled (UB). *)
  Definition relax (h : nat -> T) (cc : nat) (a : nat * T) (st : gst) : res gst :=
    match val st cc with
    | None => UB
    | Some v =>
      let testcost := v + snd a in
      let testcost_h := testcost + h (fst a) in
      Ok (if lt_huge (Some testcost_h) (hval st (fst a)) then
            {| val := fset (val st) (fst a) (Some testcost); hval := fset (hval st) (fst a) (Some testcost_h);
               gto := fset (gto st) (fst a) (Some cc); yet := zGraphNodeListAdd (yet st) (fst a) |}
          else st)
    end.
  Fixpoint relax_all (h : nat -> T) (cc : nat) (l : arcs) (st : gst) : res gst :=
    match l with [] => Ok st | a :: l => st <- relax h cc a st ;; relax_all h cc l st end.
  (** zm_graph_search.c:44-61; running out of fuel is an error *)
  Fixpoint search (fuel : nat) (G : graph) (h : nat -> T) (s : nat) (st : gst) : res gst :=
    match fuel with
    | O => UB
    | S fuel =>
      match pick (yet st) (hval st) None with
      | None => Ok st
      | Some cc =>
        let st := {| val := val st; hval := hval st; gto := gto st; yet := purge (yet st) cc |} in
        if Nat.eqb cc s then Ok st else
        match zGraphFindNode G cc with
        | None => UB
        | Some n => st <- relax_all h cc (snd n) st ;; search fuel G h s st
        end
      end
    end.
  (** zm_graph_search.c:64-67; a NULL [to] is dereferenced *)
  Fixpoint walk_back (fuel : nat) (to : nat -> option nat) (g n : nat) (path : list nat) : res (list nat) :=
    match fuel with
    | O => UB
    | S fuel =>
      let path := zGraphNodeListAdd path n in
      if Nat.eqb n g then Ok path else
      match to n with None => UB | Some m => walk_back fuel to g m path end
    end.
  (** zm_graph_search.c:13-69.  [to0]: the members [to] left by earlier searches (NULL =
      None).  Answer: s->val and the path (None if it is not touched), and the new [to]. *)
  Definition zGraphSearchAStar (G : graph) (h : nat -> nat -> T) (to0 : nat -> option nat) (start goal : nat)
    : res (option T * option (list nat) * (nat -> option nat)) :=
    let s := if Nat.eqb start goal then None else zGraphFindNode G start in
    let g := zGraphFindNode G goal in
    match s, g with
    | Some s, Some g =>
      let s := fst s in let g := fst g in
      st <- search (S (length G)) G (fun n => h n s) s
              {| val := fset (fun _ => None) g (Some 0); hval := fset (fun _ => None) g (Some (h g s));
                 gto := to0; yet := zGraphNodeListAdd [] g |} ;;
      path <- walk_back (length G) (gto st) g s [] ;;
      Ok (val st s, Some path, gto st)
    | _, _ => Ok (None, None, to0)
    end.
  (** zm_graph_search.c:72-76 *)
  Definition zGraphSearchDijkstra (G : graph) (to0 : nat -> option nat) (start goal : nat) :=
    zGraphSearchAStar G (fun _ _ => 0) to0 start goal.
End Graph.
