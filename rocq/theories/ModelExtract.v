(** Boundary extraction with segments: viennagrid/algorithm/extract_boundary.hpp
    86-151 (the overload in 162-170 calls it with the facet type).  Definitions only. *)
From Coq Require Import List Arith ZArith Bool.
From Verif Require Import ModelTopo ModelMesh ModelErase ModelQuery ModelView ModelSegmentation ModelSegment ModelCopy ModelCopySeg.
Import ModelSegmentation ListNotations.
Open Scope nat_scope.

Section Extract.
Context {Pt : Type}.

(** The state of the loops: the volume segmentation (its caches may change), the
    hull mesh with its segmentation, vertex_map and hull_element_map (115-116). *)
Record extraction := mkX {
  x_vol : sstate Pt;
  x_hull : sstate Pt;
  x_verts : vmap;
  x_elems : vmap
}.

(** extract_boundary.hpp 123-149, the body of the inner loop for the element [f] of
    the volume segment [a], with the hull segment [b].  [make_element] on the
    segment returns the handle of the element made in the mesh. *)
Definition extract_element (cfgv cfgh : config) (a b : nat) (x : extraction) (f : addr) : option extraction :=
  let t := cfg_cell cfgh in
  let s := x_vol x in
  obind (seg_bnd cfgv t (st_mesh s) (st_con s a) f) (fun r =>
  let s1 := set_con s a (fst r) in
  if snd r then
    obind (deref (st_mesh s1) t f) (fun e =>
    match vlookup (e_id e) (x_elems x) with
    | Some g => option_map (fun h => mkX s1 h (x_verts x) (x_elems x)) (seg_add b t g (x_hull x))
    | None =>
        obind (copy_vertices cfgh (st_mesh s1) (st_mesh (x_hull x), x_verts x) (e_verts e)) (fun c =>
        obind (make_element cfgh t (fst (fst c)) (snd c)) (fun made =>
        option_map (fun h => mkX s1 h (snd (fst c)) ((e_id e, snd made) :: x_elems x))
          (seg_create cfgh b (OElement t (snd c)) (with_mesh (x_hull x) (fst (fst c))))))
    end)
  else Some (mkX s1 (x_hull x) (x_verts x) (x_elems x))).

(** extract_boundary.hpp 117-150, the body of the outer loop: hull_segmentation(id)
    is get_make_segment(id) (segmentation.hpp 747). *)
Definition extract_segment (cfgv cfgh : config) (x : extraction) (za : Z * nat) : result extraction :=
  match get_make_id (fst za) (st_segs (x_hull x)) with
  | SRet g b =>
      of_option (ofold (extract_element cfgv cfgh (snd za) b) (k_view (st_con (x_vol x) (snd za)) (cfg_cell cfgh))
                   (mkX (x_vol x) (with_segs (x_hull x) g) (x_verts x) (x_elems x)))
  | SThrow _ => Thrown
  | SUndef => Undefined
  end.

(** extract_boundary.hpp 86-151.  [q] is the volume mesh with its own caches, [s]
    the same mesh with the segmentation, [h] the hull mesh with its
    segmentation. *)
Definition extract_boundary_seg (cfgv cfgh : config) (q : qstate Pt) (s h : sstate Pt) : result (qstate Pt * sstate Pt * sstate Pt) :=
  let h0 := clear_segmentation (with_mesh h (clear_mesh (st_mesh h))) in
  rbind (match segment_count (st_segs s) with
         | 0 => rbind (of_option (extract_boundary cfgv cfgh q (st_mesh h0))) (fun r => Done (fst r, with_mesh h0 (snd r)))
         | _ => Done (q, h0)
         end) (fun qh =>
  rbind (rfold (extract_segment cfgv cfgh) (g_ids (st_segs s)) (mkX s (snd qh) [] [])) (fun x =>
  Done (fst qh, x_vol x, x_hull x))).

End Extract.
