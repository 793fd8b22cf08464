(** Lemmas for C61: the text of a collection of segments. *)
From Coq Require Import Ascii String List Arith ZArith Bool Lia Sorted.
From Verif Require Import ModelTopo ModelMesh ModelErase ModelQuery ModelView ModelSegmentation ModelSegment ModelCopy ModelCopySeg ModelXml ModelVtk
  SpecXml XmlProofs VtkText.
Import ModelSegmentation ListNotations.
Open Scope nat_scope.

Section Pvd.
Context {K : Type}.
Notation reader := (@reader K).

Ltac fixed_line := intros b rest B; eexists; split; [|rewrite (parse_blanks b) by auto; first [instantiate (1 := eol); reflexivity | instantiate (1 := txt " " ++ eol); reflexivity]]; repeat constructor.
Lemma line_vtkc : line_tag "<VTKFile type=""Collection"" version=""0.1"" byte_order=""LittleEndian"" compressor=""vtkZLibDataCompressor"">"
  (mkTag (txt "vtkfile") [(txt "type", txt "Collection"); (txt "version", txt "0.1"); (txt "byte_order", txt "LittleEndian"); (txt "compressor", txt "vtkZLibDataCompressor")]).
Proof. fixed_line. Qed.
Lemma line_coll : line_tag "<Collection>" (mkTag (txt "collection") []). Proof. fixed_line. Qed.
Lemma line_coll_end : line_tag "  </Collection>" (mkTag (txt "/collection") []). Proof. fixed_line. Qed.

Definition dataset_tag (short : text) (z : Z) : xtag :=
  mkTag (txt "dataset") [(txt "part", int_text z); (txt "file", segment_file short z); (txt "name", txt "Segment_" ++ int_text z)].

Lemma file_value short z : free_of [""""%char; ">"%char] short -> attr_value_ok (segment_file short z).
Proof.
  intros H. unfold segment_file. split; [destruct short; discriminate|]. intros c Hc. rewrite !in_app_iff in Hc.
  destruct Hc as [Hc|[Hc|[Hc|Hc]]]; [auto| |now apply (proj2 (int_value z))|]; cbn in Hc; cbn; intuition (subst; discriminate).
Qed.
Lemma line_dataset b short z rest : blanks b -> free_of [""""%char; ">"%char] short ->
  parse_tag (b ++ write_dataset short z ++ rest) = Done (dataset_tag short z, eol ++ rest).
Proof.
  intros B H. rewrite parse_blanks by auto.
  pose proof (parse_written (txt "    ") (txt "DataSet") [(txt "part", int_text z); (txt "file", segment_file short z); (txt "name", txt "Segment_" ++ int_text z)] ["/"%char] (eol ++ rest)) as P.
  unfold written_tag in P. cbn [map List.concat] in P. unfold written_attr in P. cbn [fst snd] in P. unfold dataset_tag, write_dataset.
  pose proof (file_value short z H) as FV. revert P FV. generalize (segment_file short z) as f. intros f P FV.
  etransitivity; [|apply P].
  - f_equal. unfold line. do 6 (rewrite <- ?app_assoc; cbn [app txt list_ascii_of_string]). reflexivity.
  - intros c Hc. cbn in Hc. cbn. intuition (subst; discriminate).
  - intros c Hc. cbn in Hc. cbn. intuition (subst; discriminate).
  - apply Forall_cons; [|apply Forall_cons; [|apply Forall_cons; [|apply Forall_nil]]]; (split; cbn [fst snd]; [apply name_ok; [discriminate|reflexivity]|]).
    + apply int_value.
    + exact FV.
    + destruct (int_value z) as [_ I]. split; [discriminate|]. intros c Hc. apply in_app_iff in Hc as [Hc|Hc]; [|auto]. cbn in Hc. cbn. intuition (subst; discriminate).
  - split; [|discriminate]. intros c Hc. cbn in Hc. cbn. intuition (subst; discriminate).
Qed.

Lemma write_dataset_length short z : 0 < List.length (write_dataset short z).
Proof. unfold write_dataset. rewrite app_length. cbn. lia. Qed.

Lemma datasets_spec short rest (H : free_of [""""%char; ">"%char] short) zs : forall fuel l b (r : reader), blanks b -> List.length zs < fuel ->
  exists b', datasets_m fuel l r (b ++ List.concat (map (write_dataset short) zs) ++ line "  </Collection>" ++ rest) =
    Fin (fold_left (fun l z => file_put z (segment_file short z) l) zs l) r (b' ++ rest) /\ blanks b'.
Proof.
  induction zs as [|z zs IH]; intros fuel l b r B L; (destruct fuel as [|fuel]; [cbn in L; lia|]); cbn [map List.concat fold_left app datasets_m].
  - destruct (line_coll_end b rest B) as (b' & B' & P). exists b'. split; auto.
    erewrite bind_fin by (apply tag_m_spec; exact P). cbn [t_name]. rewrite text_eqb_refl. reflexivity.
  - rewrite <- app_assoc. erewrite bind_fin by (apply tag_m_spec, line_dataset; auto).
    change (text_eqb (t_name (dataset_tag short z)) (txt "/collection")) with false. change (text_eqb (t_name (dataset_tag short z)) (txt "dataset")) with true. cbv iota.
    erewrite bind_fin by (apply (attr_m_spec _ _ (segment_file short z)); reflexivity).
    change (get_value (txt "part") (dataset_tag short z)) with (int_text z). rewrite atoi_decimal.
    apply IH; [apply blanks_eol|cbn in L; lia].
Qed.

Ltac tagline L := match goal with |- context[bind _ _ _ (?b ++ _)] =>
  let B := fresh "B" in let b' := fresh "b" in let P := fresh "P" in
  edestruct (L b) as (b' & B & P); [assumption|]; (erewrite bind_fin by (first [apply tag_m_spec; exact P | apply named_m_spec; [exact P|reflexivity]])); cbv beta zeta; clear P end.

Lemma pvd_written short zs (r : reader) : free_of [""""%char; ">"%char] short ->
  exists s', pvd_m r (write_collection short zs) = Fin (fold_left (fun l z => file_put z (segment_file short z) l) zs []) r s'.
Proof.
  intros H. unfold write_collection.
  match goal with |- context[pvd_m r ?x] => change x with ([] ++ x) end. assert (B0 : blanks []) by constructor.
  unfold pvd_m, xml_m. rewrite bind_assoc.
  tagline line_xml. cbn [t_name]. erewrite bind_fin by apply ret_spec.
  tagline line_vtkc. cbn [t_name]. rewrite text_eqb_refl. erewrite bind_fin by apply ret_spec.
  erewrite bind_fin by (apply (attr_m_spec _ _ (txt "Collection")); reflexivity).
  change (text_eqb (lower_all (txt "Collection")) (txt "collection")) with true. cbv iota. erewrite bind_fin by apply ret_spec.
  tagline line_coll. cbn [t_name]. rewrite text_eqb_refl. erewrite bind_fin by apply ret_spec.
  match goal with |- context[bind _ _ _ (?b ++ List.concat _ ++ _ ++ ?rest)] =>
    destruct (datasets_spec short rest H zs (S (List.length (b ++ List.concat (map (write_dataset short) zs) ++ line "  </Collection>" ++ rest))) [] b r) as (b4 & E & B4); [assumption| |] end.
  { rewrite !app_length. assert (X : List.length zs <= List.length (List.concat (map (write_dataset short) zs))); [|lia].
    clear. induction zs as [|z zs IH]; [cbn; lia|]. cbn [map List.concat]. rewrite app_length. pose proof (write_dataset_length short z). cbn [List.length]. lia. }
  erewrite bind_fin by exact E. clear E. rewrite <- (app_nil_r (line "</VTKFile>")).
  tagline line_vtk_end. cbn [t_name]. rewrite text_eqb_refl. erewrite bind_fin by apply ret_spec. eexists. apply ret_spec.
Qed.

Lemma file_put_last z f (l : list (Z * text)) : Forall (fun y => (fst y < z)%Z) l -> file_put z f l = l ++ [(z, f)].
Proof.
  induction 1 as [|[y k] l H F IH]; cbn [file_put app]; auto. cbn [fst] in H. destruct (Z.ltb_spec z y); [lia|]. destruct (Z.ltb_spec y z); [|lia]. now rewrite IH.
Qed.
Lemma num_put_last z f (l : list (Z * nat)) : Forall (fun y => (fst y < z)%Z) l -> num_put z f l = l ++ [(z, f)].
Proof.
  induction 1 as [|[y k] l H F IH]; cbn [num_put app]; auto. cbn [fst] in H. destruct (Z.ltb_spec z y); [lia|]. destruct (Z.ltb_spec y z); [|lia]. now rewrite IH.
Qed.
Lemma collection_files short zs : StronglySorted Z.lt zs ->
  fold_left (fun l z => file_put z (segment_file short z) l) zs [] = map (fun z => (z, segment_file short z)) zs.
Proof.
  intros S. enough (G : forall l, Forall (fun y => Forall (fun z => (fst y < z)%Z) zs) l -> fold_left (fun l z => file_put z (segment_file short z) l) zs l = l ++ map (fun z => (z, segment_file short z)) zs) by (apply G; constructor).
  induction S as [|z zs S IH F]; intros l H; cbn [fold_left map]; [now rewrite app_nil_r|].
  rewrite file_put_last by (eapply Forall_impl; [|exact H]; intros y Hy; now inversion Hy). rewrite IH.
  - now rewrite <- app_assoc.
  - apply Forall_app. split; [eapply Forall_impl; [|exact H]; intros y Hy; now inversion Hy|]. constructor; auto.
Qed.

End Pvd.
