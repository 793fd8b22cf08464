(** Interface detection between two segments: viennagrid/algorithm/interface.hpp
    and the interface information of mesh/segmentation.hpp 1221-1291.
    Definitions only. *)
From Coq Require Import List Arith ZArith Bool.
From Verif Require Import ModelTopo ModelMesh ModelErase ModelAccessor ModelQuery ModelSegmentation ModelSegment.
Import ListNotations.
Open Scope nat_scope.

(** segmentation.hpp 1221-1234, segment_interface_information_wrapper: the change
    counters of the two segments at the time of detection and a
    std::vector<bool> indexed by element id. *)
Record iface := mkIf { if_c0 : nat; if_c1 : nat; if_data : list bool }.
Definition fresh_iface : iface := mkIf 0 0 [].

(** segmentation.hpp 1237-1267, interface_information_wrapper: per element type a
    std::map from pairs of segment ids.  The map is only used through operator[],
    which creates default entries, so it is a function here. *)
Definition iflags := tag -> Z * Z -> iface.
Definition set_iface (fl : iflags) (t : tag) (k : Z * Z) (e : iface) : iflags :=
  fun t' k' => if tag_eqb t t' && (Z.eqb (fst k) (fst k') && Z.eqb (snd k) (snd k')) then e else fl t' k'.

(** segmentation.hpp 1251-1253: the assertion that the ids differ; the key. *)
Definition iface_key (z0 z1 : Z) : option (Z * Z) :=
  if Z.eqb z0 z1 then None else Some (Z.min z0 z1, Z.max z0 z1).

(** The dense field: writing grows the vector (accessor.hpp 712-717), reading
    through a const field is false beyond the end (719-727). *)
Definition flag_set (d : list bool) (i : nat) (v : bool) : list bool := list_set (dense_grow false d i) i v.
Definition flag_get (d : list bool) (i : nat) : bool := match nth_error d i with Some v => v | None => false end.

Section Interface.
Context {Pt : Type}.
Notation mesh := (@mesh Pt).

(** interface.hpp 68-78, step 1: the boundary facets of the first segment.  The
    boundary query is the cached one. *)
Definition boundary_facets (cfg : config) (a : nat) (s : sstate Pt) : option (sstate Pt * list addr) :=
  let ft := facet_tag (cfg_cell cfg) in
  ofold (fun (r : sstate Pt * list addr) f =>
      let '(s, set) := r in
      option_map (fun (kr : content * bool) => (set_con s a (fst kr), if snd kr then f :: set else set))
        (seg_bnd cfg ft (st_mesh s) (st_con s a) f))
    (k_view (st_con s a) ft) (s, []).

(** interface.hpp 83-91, step 2: the facets of the second segment found in the
    set are set to true.  Nothing is set to false. *)
Definition mark_facets (m : mesh) (ft : tag) (set fs : list addr) (d : list bool) : option (list bool) :=
  ofold (fun d f =>
    option_map (fun e => if existsb (Nat.eqb f) set then flag_set d (e_id e) true else d) (deref m ft f)) fs d.

(** boundary.hpp 76-113, transfer_boundary_information, on one segment with
    dense flags. *)
Definition transfer_iface (m : mesh) (ft t : tag) (v : tag -> list addr) (src d : list bool) : option (list bool) :=
  obind (ofold (fun d x => option_map (fun e => flag_set d (e_id e) false) (deref m t x)) (v t) d) (fun d0 =>
  ofold (fun d f => obind (deref m ft f) (fun e =>
      if flag_get src (e_id e)
      then ofold (fun d x => option_map (fun e' => flag_set d (e_id e') true) (deref m t x)) (boundary_of e t) d
      else Some d)) (v ft) d0).

(** interface.hpp 97-150, interface_setter_functor for one element type: both
    segments, then the counters. *)
Definition set_interface_type (s : sstate Pt) (ft : tag) (a b : nat) (k : Z * Z) (fl : iflags) (t : tag) : option iflags :=
  obind (transfer_iface (st_mesh s) ft t (k_view (st_con s a)) (if_data (fl ft k)) (if_data (fl t k))) (fun d1 =>
  option_map (fun d2 => set_iface fl t k (mkIf (k_cc (st_con s a)) (k_cc (st_con s b)) d2))
    (transfer_iface (st_mesh s) ft t (k_view (st_con s b)) (if_data (fl ft k)) d1)).

(** A mesh with a segmentation and its interface information. *)
Record istate := mkIs { is_seg : sstate Pt; is_flags : iflags }.

(** interface.hpp 212-237, detect_interface(seg0, seg1).  The element types are
    those of bnd_types: all but cell and facet (155-180). *)
Definition detect_interface (cfg : config) (a b : nat) (k : Z * Z) (S : istate) : option istate :=
  let ft := facet_tag (cfg_cell cfg) in
  obind (boundary_facets cfg a (is_seg S)) (fun r =>
  let '(s, set) := r in
  let fl := is_flags S in
  obind (mark_facets (st_mesh s) ft set (k_view (st_con s b) ft) (if_data (fl ft k))) (fun d =>
  let fl1 := set_iface fl ft k (mkIf (if_c0 (fl ft k)) (if_c1 (fl ft k)) d) in
  option_map (fun fl2 => mkIs s (set_iface fl2 ft k (mkIf (k_cc (st_con s a)) (k_cc (st_con s b)) (if_data (fl2 ft k)))))
    (ofold (set_interface_type s ft a b k) (bnd_types cfg) fl1))).

(** interface.hpp 247-273, is_interface(seg0, seg1, element). *)
Definition is_interface (cfg : config) (a b : nat) (t : tag) (x : addr) (S : istate) : option (istate * bool) :=
  obind (find_seg a (g_segs (st_segs (is_seg S)))) (fun sa =>
  obind (find_seg b (g_segs (st_segs (is_seg S)))) (fun sb =>
  obind (iface_key (s_id sa) (s_id sb)) (fun k =>
  let e := is_flags S t k in
  obind (if (if_c0 e =? k_cc (st_con (is_seg S) a)) && (if_c1 e =? k_cc (st_con (is_seg S) b)) then Some S
         else detect_interface cfg a b k S) (fun S1 =>
  option_map (fun el => (S1, flag_get (if_data (is_flags S1 t k)) (e_id el))) (deref (st_mesh (is_seg S1)) t x))))).

(** Histories: the calls of ModelSegment.v and interface queries. *)
Inductive iop :=
| ISeg (o : sop Pt)
| IAsk (a b : nat) (t : tag) (x : addr).

Definition istep (cfg : config) (S : istate) (o : iop) : option istate :=
  match o with
  | ISeg o => option_map (fun s => mkIs s (is_flags S)) (sstep cfg (is_seg S) o)
  | IAsk a b t x => option_map fst (is_interface cfg a b t x S)
  end.

Definition new_istate (m : mesh) : istate := mkIs (new_sstate m) (fun _ _ => fresh_iface).
Definition irun (cfg : config) (ops : list iop) (S : istate) : option istate := ofold (istep cfg) ops S.

End Interface.
Arguments iop : clear implicits.
Arguments istate : clear implicits.
