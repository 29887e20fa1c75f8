(** Model of SchedulingGraph, src/librrl/scheduling_graph.cpp, and of
    AudioSignalFlow::initialiseSchedule, audio_signal_flow.cpp 577-602.

    The graph is a boost::adjacency_list with vertices numbered in the order of insertion:
    0 is the artificial source, 1 the artificial sink (tied to the top-level flow), 2+i the
    i-th atomic component.  Components are addresses; std::set and std::map iterate over
    addresses in increasing order. *)
From Verif Require Import Base FlowModel.
Local Open Scope res_scope.

(** std::set of component pointers *)
Fixpoint set_add (x : nat) (l : list nat) : list nat :=
  match l with
  | [] => [x]
  | y :: l' => if x <? y then x :: l else if x =? y then l else y :: set_add x l'
  end.

Section Graph.
  Variable o : objects.

  (** sender and receiver component of the connections, those whose sender is a composite
      are skipped (lines 112-118, 135-140) *)
  Definition audio_pairs (audio : amap) : list (nat * nat) :=
    map (fun c => (a_owner o (fst (fst c)), a_owner o (fst (snd c))))
        (filter (fun c => negb (composite o (a_owner o (fst (fst c))))) audio).
  Definition param_pairs (params : pmap) : list (nat * nat) :=
    map (fun c => (q_owner o (snd c), q_owner o (fst c)))
        (filter (fun c => negb (composite o (q_owner o (snd c)))) params).
  (** 105-151: predecessors and successors of [node] *)
  Definition predecessors (pairs : list (nat * nat)) (node : nat) : list nat :=
    fold_left (fun s p => if snd p =? node then set_add (fst p) s else s) pairs [].
  Definition successors (pairs : list (nat * nat)) (node : nat) : list nat :=
    fold_left (fun s p => if fst p =? node then set_add (snd p) s else s) pairs [].
End Graph.

(** mVertexLookup for processors: vertex of an atom; a failing lookup is followed by the
    dereferencing of the end iterator, because the exception of line 162 is constructed, but
    not thrown *)
Fixpoint index_of (x : nat) (l : list nat) : option nat :=
  match l with
  | [] => None
  | y :: l' => if x =? y then Some 0 else match index_of x l' with Some i => Some (S i) | None => None end
  end.
Definition vertex_of (atoms : list nat) (x : nat) : res nat :=
  match index_of x atoms with Some i => Ok (2 + i) | None => UB end.

Definition edge := (nat * nat)%type.
(** lines 100-177 for one entry of mVertexLookup: [v] is the vertex, [node] the component *)
Definition vertex_edges (pairs : list (nat * nat)) (atoms : list nat) (v node : nat) : res (list edge) :=
  let preds := predecessors pairs node in
  let succs := successors pairs node in
  inc <- match preds with
         | [] => Ok [(0, v)]
         | _ => fold_left (fun r p => es <- r ;; u <- vertex_of atoms p ;; Ok (es ++ [(u, v)])) preds (Ok [])
         end ;;
  Ok (inc ++ match succs with [] => if v =? 1 then [] else [(v, 1)] | _ => [] end).

(** initialise, 72-177: [flow] is the address of the top-level component; the entries of
    mVertexLookup are visited in the order source, sink, processors by address *)
Definition sorted_atoms (atoms : list nat) : list nat := fold_left (fun s a => set_add a s) atoms [].
Definition graph_edges (pairs : list (nat * nat)) (flow : nat) (atoms : list nat) : res (list edge) :=
  fold_left (fun r a => es <- r ;; v <- vertex_of atoms a ;; new <- vertex_edges pairs atoms v a ;; Ok (es ++ new))
            (sorted_atoms atoms) (vertex_edges pairs atoms 1 flow).

(** *** Depth-first search (boost::depth_first_visit, boost::depth_first_search)
    [gray]: vertices being visited; the finished (black) vertices are [fst st] in the order of
    finishing, the back edges found so far [snd st].  Running out of fuel is reported as
    undefined; it does not happen (dfs_visit_ok). *)
Definition dfs_state := (list nat * list edge)%type.
Definition out_edges (es : list edge) (u : nat) : list nat := map snd (filter (fun e => fst e =? u) es).
Fixpoint dfs_visit (es : list edge) (fuel : nat) (gray : list nat) (u : nat) (st : dfs_state) : res dfs_state :=
  match fuel with
  | 0 => UB
  | S fuel' =>
      st' <- fold_left (fun (r : res dfs_state) v =>
                          st <- r ;;
                          if mem v (fst st) then Ok st
                          else if mem v (u :: gray) then Ok (fst st, snd st ++ [(u, v)])
                          else dfs_visit es fuel' (u :: gray) v st)
                       (out_edges es u) (Ok st) ;;
      Ok (fst st' ++ [u], snd st')
  end.
(** depth_first_search: all vertices in turn *)
Definition dfs_all (es : list edge) (n : nat) : res dfs_state :=
  fold_left (fun r v => st <- r ;; if mem v (fst st) then Ok st else dfs_visit es n [] v st) (seq 0 n) (Ok ([], [])).

(** checkAcyclicGraph, 212-251: search from the source vertex only *)
Definition checkAcyclicGraph (es : list edge) (n : nat) : res bool :=
  st <- dfs_visit es n [] 0 ([], []) ;; Ok (match snd st with [] => true | _ => false end).

(** sequentialSchedule, 253-280; boost::topological_sort throws not_a_dag, which is a
    std::invalid_argument, when it meets a back edge *)
Definition sequentialSchedule (es : list edge) (atoms : list nat) : res (list nat) :=
  let n := 2 + length atoms in
  acyclic <- checkAcyclicGraph es n ;;
  if negb acyclic then Throw InvalidArgument
  else
    st <- dfs_all es n ;;
    match snd st with
    | _ :: _ => Throw InvalidArgument
    | [] =>
        if negb (length (fst st) =? 2 + length (sorted_atoms atoms)) then Throw LogicError
        else Ok (map (fun v => nth (v - 2) atoms 0) (filter (fun v => 2 <=? v) (rev (fst st))))
    end.

(** initialiseSchedule, audio_signal_flow.cpp 577-602 *)
Definition initialiseSchedule (o : objects) (flow : comp) (audio : amap) (params : pmap) : res (list nat) :=
  match flow with
  | Atomic c _ _ => Ok [c]
  | Composite c _ _ _ _ _ =>
      let atoms := collectAllComponents flow in
      es <- graph_edges (audio_pairs o audio ++ param_pairs o params) c atoms ;;
      sequentialSchedule es atoms
  end.
