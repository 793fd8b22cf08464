(** Extraction of seed points: viennagrid/algorithm/extract_seed_points.hpp.
    Definitions only. *)
From Coq Require Import Reals List Arith ZArith Bool.
From Verif Require Import ModelTopo ModelMesh ModelErase ModelGeom ModelVolume ModelQuery ModelSegmentation ModelSegment ModelRefineMesh.
Import ModelSegmentation ListNotations.
Open Scope nat_scope.

(** How a call with loops ends that are stopped after a number of rounds. *)
Inductive stopped (A : Type) := Finished (x : A) | Undef | Running.
Arguments Finished {A}. Arguments Undef {A}. Arguments Running {A}.
Definition sobind {A B} (r : stopped A) (f : A -> stopped B) : stopped B :=
  match r with Finished x => f x | Undef => Undef | Running => Running end.
Definition of_opt {A} (o : option A) : stopped A := match o with Some x => Finished x | None => Undef end.
Fixpoint sofold {A B} (f : A -> B -> stopped A) (l : list B) (x : A) : stopped A :=
  match l with [] => Finished x | b :: r => sobind (f x b) (fun y => sofold f r y) end.

(** std::map<CellIDType, ConstCellHandleType>: sorted by id. *)
Definition idmap := list (nat * addr).
Fixpoint map_set (i : nat) (h : addr) (u : idmap) : idmap :=
  match u with
  | [] => [(i, h)]
  | (j, k) :: r => if i <? j then (i, h) :: u else if i =? j then (i, h) :: r else (j, k) :: map_set i h r
  end.
Definition map_has (i : nat) (u : idmap) : bool := existsb (fun p => fst p =? i) u.
Definition map_erase (i : nat) (u : idmap) : idmap := filter (fun p => negb (fst p =? i)) u.

(** The functions are templates over a mesh or segment: [St] is the state of its
    caches, [nb] the const neighbour range of a cell, [idof] the id of a cell and
    [center] its centroid. *)
Section Seeds.
Context {St P : Type}.
Variable nb : St -> addr -> option (St * list addr).
Variable idof : addr -> option nat.
Variable center : addr -> option P.

(** extract_seed_points.hpp 43-50: whether some neighbour is not in the map. *)
Fixpoint has_outside (u : idmap) (l : list addr) : option bool :=
  match l with
  | [] => Some false
  | b :: r => match idof b with Some i => if map_has i u then has_outside u r else Some true | None => None end
  end.

(** extract_seed_points.hpp 35-58, the body of the for loop.  The loop runs over
    the map from which it erases the current entry. *)
Definition mark_one (st : St * idmap * bool) (p : nat * addr) : option (St * idmap * bool) :=
  let '(s, u, found) := st in
  match nb s (snd p) with
  | Some (s', l) => option_map (fun o : bool => if o then (s', map_erase (fst p) u, true) else (s', u, found)) (has_outside u l)
  | None => None
  end.

(** extract_seed_points.hpp 28-61, neighbor_mark, stopped after [fuel] rounds. *)
Fixpoint neighbor_mark (fuel : nat) (s : St) (u : idmap) : stopped (St * idmap) :=
  match fuel with
  | 0 => Running
  | S fuel' =>
      match ofold mark_one u (s, u, false) with
      | None => Undef
      | Some (s', u', true) => neighbor_mark fuel' s' u'
      | Some (s', u', false) => Finished (s', u')
      end
  end.

(** extract_seed_points.hpp 89-99, the body of the for loop. *)
Definition seed_cell (fuel : nat) (st : St * idmap * list P) (c : addr) : stopped (St * idmap * list P) :=
  let '(s, u, points) := st in
  sobind (of_opt (idof c)) (fun i =>
  if map_has i u then
    sobind (of_opt (center c)) (fun p =>
    sobind (neighbor_mark fuel s (map_erase i u)) (fun r => Finished (fst r, snd r, points ++ [p])))
  else Finished st).

(** extract_seed_points.hpp 86-101, the while loop, stopped after [fuel] rounds. *)
Fixpoint seed_loop (fuel : nat) (cells : list addr) (st : St * idmap * list P) : stopped (St * idmap * list P) :=
  match snd (fst st) with
  | [] => Finished st
  | _ => match fuel with
         | 0 => Running
         | S fuel' => sobind (sofold (seed_cell fuel) cells st) (seed_loop fuel' cells)
         end
  end.

(** extract_seed_points.hpp 69-103; [points] is what the container holds. *)
Definition extract (fuel : nat) (cells : list addr) (s : St) (points : list P) : stopped (St * list P) :=
  sobind (of_opt (ofold (fun u c => option_map (fun i => map_set i c u) (idof c)) cells [])) (fun u =>
  sobind (seed_loop fuel cells (s, u, points)) (fun r => Finished (fst (fst r), snd r))).

End Seeds.

(** centroid(cell), centroid.hpp 37-59 and 60-105. *)
Definition cell_center (m : @mesh point) (t : tag) (c : addr) : option point :=
  obind (deref m t c) (fun e => option_map centroid (cell_points m e)).
Definition cell_id (m : @mesh point) (t : tag) (c : addr) : option nat := option_map e_id (deref m t c).

(** extract_seed_points(mesh, seed_points) for a mesh with the cell type [t], *)
Definition mesh_seeds (fuel : nat) (t : tag) (q : qstate point) (points : list point) : stopped (qstate point * list point) :=
  extract (query_nb true t (facet_tag t)) (cell_id (q_mesh q) t) (cell_center (q_mesh q) t) fuel (range (q_mesh q) t) q points.
(** and for the segment [a]. *)
Definition segment_seeds (fuel : nat) (t : tag) (s : sstate point) (a : nat) (points : list point) : stopped (content * list point) :=
  extract (fun k => seg_nb true t (facet_tag t) (st_mesh s) k) (cell_id (st_mesh s) t) (cell_center (st_mesh s) t) fuel
    (k_view (st_con s a) t) (st_con s a) points.

(** extract_seed_points.hpp 119-133, the loop over the segments of a segmentation that is
    not empty; without segments the seed points of the mesh are used, with the id 0. *)
Definition segmentation_seeds (fuel : nat) (t : tag) (s : sstate point) (points : list (point * Z)) : stopped (sstate point * list (point * Z)) :=
  sofold (fun st a =>
    sobind (segment_seeds fuel t (fst st) a []) (fun r =>
    sobind (of_opt (id_of_seg (st_segs (fst st)) a)) (fun z =>
    Finished (set_con (fst st) a (fst r), snd st ++ map (fun p => (p, z)) (snd r)))))
    (segment_range (st_segs s)) (s, points).
