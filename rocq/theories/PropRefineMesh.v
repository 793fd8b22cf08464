(** Property C39: refinement of meshes. *)
From Coq Require Import Reals List Arith Bool Lra Permutation.
From Verif Require Import ModelTopo ModelMesh ModelErase ModelGeom ModelLongest ModelRefineMesh SpecMesh SpecErase SpecCopy SpecGeom SpecRefine SpecTri SpecRefineMesh MeshDemo RefineMeshProofs.
Import ListNotations.
(** C39. Refining any triangle or tetrahedron mesh, with any flags, into any mesh
    of the same cell type is defined and gives exactly this: one new vertex for
    each flagged edge, in its middle, one for each vertex of a cell, at the same
    place, and in order the parts of the cells, which share these vertices. *)
Theorem C39_refine : forall d cfgs cfg (src out : @mesh point) (fl : addr -> bool),
  reach cfgs src -> cfg_keep cfgs Line = true -> cfg_cell cfgs = Triangle \/ cfg_cell cfgs = Tet ->
  reach cfg out -> cfg_cell cfg = cfg_cell cfgs ->
  exists out' phi mu, refine d cfg src (cfg_cell cfgs) fl out = Some out' /\ reach cfg out' /\
    is_refinement d src out out' (cfg_cell cfgs) fl phi mu.
Proof. exact C39_refine_pf. Qed.
Print Assumptions C39_refine.

(** C39 with C33 and C34: the parts of a cell fill it, inside it, and if the cell
    is not degenerate no two of them overlap ([ps] and [pos] are the points of the
    vertices of the two meshes). *)
Theorem C39_parts_cover : forall d cfgs cfg (src out out' : @mesh point) (fl : addr -> bool) phi mu,
  reach cfgs src -> cfg_keep cfgs Line = true -> cfg_cell cfgs = Triangle \/ cfg_cell cfgs = Tet -> reach cfg out' ->
  is_refinement d src out out' (cfg_cell cfgs) fl phi mu ->
  forall c vs cs ps ids pos ids', vertices_at src (cfg_cell cfgs) c = Some vs -> is_split d src out' (cfg_cell cfgs) fl phi mu c cs ->
    reads src ps ids -> reads out' pos ids' ->
    covers d (map ps vs) (map (map pos) cs) /\ (independent d (map ps vs) -> no_overlap d (map (map pos) cs)).
Proof. exact C39_parts_cover_pf. Qed.
Print Assumptions C39_parts_cover.

(** C39 with C33 and C36: two cells with a common face split it identically: a
    triangle (in triangle meshes: an edge) on the face is one of a part of the
    first cell iff it is one of a part of the second. *)
Theorem C39_conforming : forall d cfgs cfg (src out out' : @mesh point) (fl : addr -> bool) phi mu,
  reach cfgs src -> cfg_keep cfgs Line = true -> cfg_cell cfgs = Triangle \/ cfg_cell cfgs = Tet -> reach cfg out' ->
  is_refinement d src out out' (cfg_cell cfgs) fl phi mu ->
  forall c1 vs1 cs1 c2 vs2 cs2 face f,
    vertices_at src (cfg_cell cfgs) c1 = Some vs1 -> is_split d src out' (cfg_cell cfgs) fl phi mu c1 cs1 ->
    vertices_at src (cfg_cell cfgs) c2 = Some vs2 -> is_split d src out' (cfg_cell cfgs) fl phi mu c2 cs2 ->
    NoDup face -> length face = dim (cfg_cell cfgs) -> incl face vs1 -> incl face vs2 ->
    NoDup f -> length f = dim (cfg_cell cfgs) -> (forall u, In u f -> on_face src fl phi mu face u) ->
    ((exists ws, In ws cs1 /\ incl f ws) <-> (exists ws, In ws cs2 /\ incl f ws)).
Proof. exact C39_conforming_pf. Qed.
Print Assumptions C39_conforming.

(** cell_refine splits exactly the edges of the flagged cells,
    cell_refine_uniformly all edges: every triangle into four, every tetrahedron
    into eight. *)
Theorem C39_cell_and_uniform_refine : forall d cfgs cfg (src out : @mesh point) (cellflag : addr -> bool),
  reach cfgs src -> cfg_keep cfgs Line = true -> cfg_cell cfgs = Triangle \/ cfg_cell cfgs = Tet ->
  reach cfg out -> cfg_cell cfg = cfg_cell cfgs ->
  let t := cfg_cell cfgs in
  (exists out' phi mu fl, cell_refine d cfg src t cellflag out = Some out' /\ reach cfg out' /\ is_refinement d src out out' t fl phi mu /\
     forall a, fl a = true <-> exists c e, cellflag c = true /\ deref src t c = Some e /\ In a (boundary_of e Line)) /\
  (exists out' phi mu fl, refine_uniformly d cfg src t out = Some out' /\ reach cfg out' /\ is_refinement d src out out' t fl phi mu /\
     (forall a, fl a = true <-> In a (range src Line)) /\
     length (range out' t) = length (range out t) + (match t with Triangle => 4 | _ => 8 end) * length (range src t)).
Proof. exact C39_cell_and_uniform_refine_pf. Qed.
Print Assumptions C39_cell_and_uniform_refine.

(** Two triangles with a common edge, which is the only flagged one, into a mesh
    that already has a vertex: four triangles. *)
Definition rm_ops : list (op point) :=
  [OVertex (pt2 0 0); OVertex (pt2 3 0); OVertex (pt2 0 1); OVertex (pt2 5 1); OElement Triangle [0;1;2]; OElement Triangle [1;2;3]].
Definition rm_src : @mesh point := mesh_of (full_config Triangle) rm_ops.
Definition rm_out : @mesh point := mesh_of (full_config Triangle) [OVertex (pt2 7 7)].
Definition rm_fl (a : addr) : bool := a =? 2.
Example C39_hypotheses_met : reach (full_config Triangle) rm_src /\ cfg_keep (full_config Triangle) Line = true /\ reach (full_config Triangle) rm_out /\ cfg_cell (full_config Triangle) = Triangle /\ vertices_at rm_src Line 2 = Some [1; 2].
Proof. split; [apply demo_ok; reflexivity|]. split; [reflexivity|]. split; [apply demo_ok; reflexivity|]. split; [reflexivity|]. cbv -[pt2]. reflexivity. Qed.
Example C39_example_result :
  option_map (fun m => map (vertices_at m Triangle) (range m Triangle)) (refine 2 (full_config Triangle) rm_src Triangle rm_fl rm_out)
  = Some [Some [3; 1; 2]; Some [1; 4; 2]; Some [3; 1; 5]; Some [1; 4; 5]].
Proof. cbv -[pt2 Rplus Rminus Rmult Rdiv Rinv IZR]. reflexivity. Qed.
(** A triangle with all three edges. *)
Example C39_geometry_met : exists e, deref rm_src Triangle 0 = Some e /\ length (boundary_of e Line) = 3 /\ exists ps ids, reads rm_src ps ids.
Proof.
  eexists. split; [cbv -[pt2]; reflexivity|]. split; [reflexivity|].
  exists (fun a => match a with 0 => pt2 0 0 | 1 => pt2 3 0 | 2 => pt2 0 1 | _ => pt2 5 1 end), (fun a => a).
  intros a e D. do 4 (destruct a as [|a]; [cbv -[pt2] in D; inversion D; auto|]). cbv -[pt2] in D. discriminate.
Qed.
