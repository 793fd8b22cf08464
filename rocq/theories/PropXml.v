(** C60: XML tags are read back as they were written. *)
From Coq Require Import Ascii String List Arith Bool Lia.
From Verif Require Import ModelCopySeg ModelXml SpecXml XmlProofs.
Import ListNotations.
Local Open Scope char_scope.
(** A tag that was written is read back: the names in lower case, the values as
    they are, in order; reading goes on after the closing bracket. *)
Theorem C60_parse : forall junk name attrs tail rest,
  free_of ["<"] junk -> tag_name_ok name -> Forall attr_ok attrs -> tail_ok attrs tail ->
  parse_tag (junk ++ written_tag name attrs tail ++ rest) =
  Done (mkTag (small_letters name) (map (fun nv => (small_letters (fst nv), snd nv)) attrs), rest).
Proof. exact C60_parse_pf. Qed.
Print Assumptions C60_parse.

(** Whatever the file contains, reading a tag ends, and it makes progress. *)
Theorem C60_progress : forall s, parse_tag s = Thrown \/ exists t r p, parse_tag s = Done (t, r) /\ s = p ++ r /\ p <> [].
Proof. exact C60_progress_pf. Qed.
Print Assumptions C60_progress.

(** Where the claim fails: a value with a closing angle bracket, which is legal in
    XML, ends the tag; the attribute is lost and reading goes on inside of it. *)
Theorem C60_bracket_refuted : forall junk name attrs a v w tail rest,
  free_of ["<"] junk -> tag_name_ok name -> Forall attr_ok attrs -> attr_name_ok a -> free_of [""""; ">"] v ->
  parse_tag (junk ++ written_tag name (attrs ++ [(a, v ++ ">" :: w)]) tail ++ rest) =
  Done (mkTag (small_letters name) (map (fun nv => (small_letters (fst nv), snd nv)) attrs), w ++ """" :: tail ++ ">" :: rest).
Proof. exact C60_bracket_refuted_pf. Qed.
Print Assumptions C60_bracket_refuted.

(** An empty value, which is legal XML as well, is not accepted. *)
Theorem C60_empty_refuted : forall junk name a tail rest,
  free_of ["<"] junk -> tag_name_ok name -> attr_name_ok a ->
  parse_tag (junk ++ written_tag name [(a, [])] tail ++ rest) = Thrown.
Proof. exact C60_empty_refuted_pf. Qed.
Print Assumptions C60_empty_refuted.

(** The attributes of a tag that was written: a check succeeds exactly if the tag has
    the attribute, in any case of the letters, and throws otherwise; the value is that
    of the first such attribute, and empty without one. *)
Theorem C60_attributes : forall junk name attrs tail rest t r,
  free_of ["<"] junk -> tag_name_ok name -> Forall attr_ok attrs -> tail_ok attrs tail ->
  parse_tag (junk ++ written_tag name attrs tail ++ rest) = Done (t, r) ->
  forall a,
    ((exists n v, In (n, v) attrs /\ small_letters n = a) -> check_attr a t = Done tt) /\
    ((forall n v, In (n, v) attrs -> small_letters n <> a) -> check_attr a t = Thrown /\ get_value a t = []) /\
    (forall before n v after, attrs = before ++ (n, v) :: after -> small_letters n = a ->
       (forall n' v', In (n', v') before -> small_letters n' <> a) -> get_value a t = v).
Proof. exact C60_attributes_pf. Qed.
Print Assumptions C60_attributes.

(** A tag of a VTK file. *)
Example C60_case : let attrs := [(txt "type", txt "Float32"); (txt "NumberOfComponents", txt "3"); (txt "format", txt "ascii")] in
  Forall attr_ok attrs /\ tail_ok attrs [] /\ tag_name_ok (txt "DataArray") /\ free_of ["<"] (txt "   ") /\
  parse_tag (txt "   <DataArray type=""Float32"" NumberOfComponents=""3"" format=""ascii"">1 2") =
  Done (mkTag (txt "dataarray") [(txt "type", txt "Float32"); (txt "numberofcomponents", txt "3"); (txt "format", txt "ascii")], txt "1 2").
Proof.
  cbv zeta. split; [|split; [|split; [|split; [|reflexivity]]]].
  - repeat (apply Forall_cons || apply Forall_nil); (split; (split; [discriminate|])); intros c H N; cbn in H, N; intuition (subst; discriminate).
  - split; [intros c []|discriminate].
  - intros c H N. cbn in H, N. intuition (subst; discriminate).
  - intros c H N. cbn in H, N. intuition (subst; discriminate).
Qed.
(** The name of a quantity with a bracket: the reader sees a tag without a name. *)
Example C60_bracket_case : parse_tag (txt "<DataArray Name=""a>b"">1 2") = Done (mkTag (txt "dataarray") [], txt "b"">1 2").
Proof. reflexivity. Qed.
