(** A case in which the hypotheses of C74_columns hold. *)
From Coq Require Import Reals Lra Permutation String ZArith Lia.
From Flocq Require Import Core IEEE754.BinarySingleNaN IEEE754.Binary IEEE754.Bits.
From Verif Require Import Prelude Bytes LayoutModel PsiFileModel PsiFileSpec DeckModel MeshModel MeshSpec MeshProofs PropertiesMesh CreateModel CreateSpec CreateProofs PropertiesCreate TychoModel TychoSpec GeometryModel GaussModel TransportModel SweepModel ViewModel ViewSpec PropertiesView BitsModel BitsSpec PropertiesBits
  ColumnsModel ColumnsSpec MetisModel MetisSpec DoubleModel DoubleSpec DoubleProofs PropertiesDouble RefineModel RefineSpec GeometrySpec RefinedSpec GridModel GridSpec PropertiesGrid MainModel MainSpec PropertiesMain PropertiesMainEx MainExact MainTransport PropertiesMainExact MainAllModel MainAllSpec PropertiesMainAll PropertiesMainAllEx CommandModel PropertiesCommand PropertiesCommandEx PropertiesTools.

(** The two tetrahedra of C12 in two columns: the tool runs, and the first column gets the cell with the smaller x. *)
Example C74_columns_ex : exists fs fs' pv, columnsMain Rops C65_dec C74_sortXR C74_sortYR [str "PartitionColumns.x"; str "2"; str "1"; str "cube.smesh"; str "out.pmesh"] fs = Some fs' /\
  partition_vector_ok C12_mesh (map N.of_nat pv) 2 /\ count_cells 2 (fun c => nth c pv 0 =? 0) = 1 /\ count_cells 2 (fun c => nth c pv 0 =? 1) = 1.
Proof.
  assert (P : prepared Rops C65_dec C74_sortXR C74_sortYR 32 C74_metis C72_stod C65_ltb C72_quadrature (/ 10 ^ 10)%R (str "cube.smesh") (str "a.deck") (C74_decks C12_mesh (C72_deck Schur false) (C72_deck Schur false)) C12_mesh (C72_cfg Schur false) C70R_q) by (apply C74_exact_prepared; reflexivity).
  destruct P as [(file & F & RD) _ TO CMP]. pose proof (pb_mesh _ _ _ _ _ C72_problem) as OK. pose proof (pb_tets _ _ _ _ _ C72_problem) as TT.
  assert (AS : asks (ByColumns (str "2") (str "1")) 2) by (exists 2, 1; repeat split; try reflexivity; lia).
  destruct (tool_runs Rops C65_dec C74_sortXR C74_sortYR 32 C74_metis C12_mesh OK TT TO C65_ltb CMP _ (str "PartitionColumns.x") (str "cube.smesh") (str "out.pmesh") _ file 2 F RD AS (C72_small 2 ltac:(lia)) (fun _ _ _ _ => eq_refl)) as (fs1 & R). cbn [partitions] in R.
  destruct TO as (SX & SY & _).
  destruct (C74_columns C65_dec C74_sortXR C74_sortYR (str "PartitionColumns.x") (str "2") (str "1") (str "cube.smesh") (str "out.pmesh") _ fs1 file C12_mesh 2 1 SX SY F RD OK eq_refl eq_refl R) as (pv & m & mesh & m' & PV & _ & _ & _ & _ & C & _).
  eexists _, fs1, pv. split; [exact R|]. split; [exact PV|]. split; [exact (C 0 0 ltac:(lia) ltac:(lia))|exact (C 1 0 ltac:(lia) ltac:(lia))].
Qed.
