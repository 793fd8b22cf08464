(** Refinement of a mesh together with its segments: viennagrid/algorithm/refine.hpp
    92-138, 191-229, 723-1063.  Definitions only. *)
From Coq Require Import Reals List Arith ZArith Bool.
From Verif Require Import ModelTopo ModelMesh ModelErase ModelGeom ModelSegmentation ModelSegment ModelCopy ModelCopySeg ModelLongest ModelRefineMesh.
Import ModelSegmentation ListNotations.
Open Scope nat_scope.

Section RefineSeg.
Variable d : nat.

(** refine.hpp 129-135, the loop over the parts of one cell: each is made and
    added to the segments with the ids [zs], which are made if need be. *)
Definition make_part (cfg : config) (t : tag) (zs : list Z) (s : sstate point) (vs : list addr) : result (sstate point) :=
  rbind (of_option (make_element cfg t (st_mesh s) vs)) (fun r => add_all t (snd r) zs (with_mesh s (fst r))).

(** refine.hpp 114-136, the body of the loop over the cells.  segment_ids() of a
    cell without an entry is end()->second; the code would use it for the first
    part, and every cell has a part, so the model stops at once. *)
Definition refine_cell_seg (cfg : config) (src : sstate point) (t : tag) (fl : flags) (em : vmap)
    (r : sstate point * vmap) (c : addr) : result (sstate point * vmap) :=
  rbind (of_option (segment_ids src t c)) (fun zs =>
  rbind (of_option (element_refinement d cfg (st_mesh src) t fl em (st_mesh (fst r), snd r) c)) (fun q =>
  rbind (rfold (make_part cfg t zs) (snd q) (with_mesh (fst r) (fst (fst q)))) (fun s' =>
  Done (s', snd (fst q))))).

(** refine.hpp 191-229 and 729-815, refine(mesh_in, segmentation_in, mesh_out,
    segmentation_out, flags) with a new vertex_copy_map; neither mesh_out nor
    segmentation_out is cleared. *)
Definition refine_seg (cfg : config) (src : sstate point) (t : tag) (fl : flags) (dst : sstate point) : result (sstate point) :=
  rbind (of_option (edge_vertices cfg (st_mesh src) fl (st_mesh dst))) (fun r =>
  rbind (rfold (refine_cell_seg cfg src t fl (snd r)) (range (st_mesh src) t) (with_mesh dst (fst r), [])) (fun q =>
  Done (fst q))).

(** refine.hpp 834-902, element_refine and cell_refine; 1000-1026,
    refine_uniformly and cell_refine_uniformly. *)
Definition cell_refine_seg (cfg : config) (src : sstate point) (t : tag) (cellflag : addr -> bool) (dst : sstate point) :=
  refine_seg cfg src t (cells_to_edges (st_mesh src) t cellflag (fun _ => false)) dst.
Definition refine_uniformly_seg (cfg : config) (src : sstate point) (t : tag) (dst : sstate point) :=
  refine_seg cfg src t (mark_all (st_mesh src) (fun _ => false)) dst.

End RefineSeg.
