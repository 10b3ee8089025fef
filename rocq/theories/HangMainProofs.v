(** The whole program ends a sweep by graph traversal only if the mesh has no cycle of cells, as the computed signs order them. *)
From Coq Require Import Permutation Reals.
From Verif Require Import Prelude Bytes DeckModel MeshModel MeshSpec CreateModel CreateSpec CreateProofs TychoModel TychoSpec GeometryModel GaussModel TransportModel
  TraverseModel TraverseSpec TraverseRun SweepModel FluxModel ProblemModel ViewModel ViewSpec ViewProofs ViewSysProofs PropertiesView BitsModel BitsSpec BitsProofs MainModel PropertiesHang.

Section World.
  Context (sm : smesh) (pv : list N) (np : nat) (m : pmesh) (ltb : N -> N -> bool) (dec : N -> R) (t : nat -> tmesh).
  Context (OK : serial_mesh_ok sm) (TT : tets_ok sm) (PV : partition_vector_ok sm pv np) (CR : createFromSerialMesh sm pv np = Some m).
  Context (CMP : compares sm dec ltb).
  Context (RD : forall r, r < np -> exists P, PM_part m (N.of_nat r) = Some P /\ readTychoMesh ltb P (N.of_nat r) = Some (t r)).
  Context {T : Type} (A : arith T) (decT : N -> T) (om : nat -> q3 T) (nA : nat).
  Notation M := (fun r => viewMesh A decT om (t r)).
  (** The cells of the ranks and those of the serial mesh: no cycles in either or in both. *)
  Lemma acyclic_back : acyclic Forward true np nA M (mateOf sm np t) -> b_acyclic A sm decT om nA.
  Proof.
    intros (lvl & L). exists (fun a g => match gather np t (fun r c a => Some (fun _ _ => lvl r c a)) a g with Some b => b 0 0 | None => 0 end).
    intros a g lf h Ha (f & sf & O & AC & NI) B.
    assert (HS : exists sc, SM_cell sm g = Some sc) by (destruct O as (sc & ? & _); eauto). destruct HS as (sc & HS).
    assert (Hl : lf < 4). { destruct O as (sc' & _ & _ & _ & Hl & _). exact Hl. }
    destruct (gid_onto sm pv np m ltb dec t OK TT PV CR CMP RD g sc HS) as (r & c & Hr & HG).
    destruct (gid_cell sm pv np m ltb dec t OK TT PV CR CMP RD r c g Hr HG) as (_ & _ & _ & _ & _ & _ & _ & _ & Hc & _).
    destruct (face_cases sm pv np m ltb dec t OK TT PV CR CMP RD r c g lf Hr Hl HG) as (n & sf' & O' & K).
    destruct (opp_fun sm pv np m ltb dec t OK TT PV CR CMP RD _ _ _ _ _ _ O' O) as (-> & ->). rewrite AC in K.
    destruct K as [(E & _)|(_ & q & c' & f' & Hm & HH)]; [congruence|].
    assert (Hq : q < np). { apply (mate_iff sm pv np m ltb dec t OK TT PV CR CMP RD) in Hm. now destruct Hm as (_ & Hq & _). }
    rewrite (gather_ok sm pv np m ltb dec t OK TT PV CR CMP RD (fun _ : N => 0) (fun _ : nat => Q3 0 0 0) (fun _ _ => 0) (fun _ => 0) (fun _ _ _ _ _ => 0) (fun _ _ _ => 0%N) _ q c' h a Hq HH), (gather_ok sm pv np m ltb dec t OK TT PV CR CMP RD (fun _ : N => 0) (fun _ : nat => Q3 0 0 0) (fun _ _ => 0) (fun _ => 0) (fun _ _ _ _ _ => 0) (fun _ _ _ => 0%N) _ r c g a Hr HG).
    apply L; auto. split; auto. split; [exact Hc|]. exists lf, f'. split; auto. split; auto. split; auto. unfold isIncoming.
    pose proof (bout_ok sm pv np m ltb dec t OK TT PV CR CMP RD A decT om r a c g lf Hr Hl HG) as E. rewrite E, B. reflexivity.
  Qed.
End World.

(** A sweep by graph traversal of the program that ends. *)
Section Sweep.
  Context {T : Type} (A : arith T) (dec : N -> T) (ltb : N -> N -> bool) (sm : smesh) (pv : list N) (np : nat) (cfg : config T) (q : angles T) (threads : nat).
  Context (OK : serial_mesh_ok sm) (TT : tets_ok sm) (SF : signs_fit A sm dec (q_omega q) (q_num q)).
  Context (PV : partition_vector_ok sm pv np) (SM : mesh_small sm np) (CMP : exists decR, compares sm decR ltb) (TH : 0 < threads).
  Context (HG0 : (0 < cNGroups cfg)%N) (SZ : (N.of_nat (q_num q * length (sm_cells sm) * 4) * (24 * cNGroups cfg) < INT_MAX)%N).
  Context (t : nat -> tmesh) (RD : program_reads sm pv np ltb t).
  Notation R0 := (traverser A dec cfg q t np threads).
  Lemma sweep_acyclic gs nG geo sT pr src psi S : (cNGroups cfg < 2^31)%N -> sweepEnds A R0 gs nG geo sT pr src psi S -> b_acyclic A sm dec (q_omega q) (q_num q).
  Proof.
    intros NG (bnd0 & S0 & I & H & F). destruct (reads_parts sm pv np ltb t OK PV SM RD) as (m & CR & R1). destruct CMP as (d & CP).
    assert (SIZE : (N.of_nat (q_num q) * lenN (sm_cells sm) < two64)%N).
    { unfold lenN, two64. assert (E : N.of_nat (q_num q * length (sm_cells sm) * 4) = (N.of_nat (q_num q) * N.of_nat (length (sm_cells sm)) * 4)%N) by lia. rewrite E in SZ. unfold INT_MAX in SZ.
      revert SZ. generalize (N.of_nat (q_num q) * N.of_nat (length (sm_cells sm)))%N. intros x SZ. clear -SZ HG0. assert (x * 4 * 24 <= x * 4 * (24 * cNGroups cfg))%N by (apply N.mul_le_mono_l; lia). lia. }
    (* the run with the pairing of faces written down *)
    set (R' := withSourceA A (mkRun (u_dir R0) (u_comm R0) (u_mpi R0) (u_ranks R0) (u_angles R0) (u_threads R0) (u_max R0) (u_psize R0) (u_mesh R0) (u_data R0) (mateOf sm np t)) gs nG geo sT pr src).
    assert (PS : getDataSizeInBytes (cNGroups cfg) = (24 * cNGroups cfg)%N). { unfold getDataSizeInBytes. rewrite (w64_small (_ * 3)) by (unfold two64; lia). rewrite w64_small by (unfold two64; lia). lia. }
    assert (G : good_run R').
    { unfold good_run. cbn [R' withSourceA traverser u_dir u_ranks u_angles u_mesh u_mate u_threads u_psize]. rewrite PS.
      split; [exact (bfit sm pv np m ltb d t OK TT PV CR CP R1 A dec (q_omega q) (q_num q) SIZE SF)|]. split; [exact TH|]. split; [lia|].
      intros r Hr. eapply N.le_lt_trans; [|exact SZ]. apply N.mul_le_mono_r. cbn. pose proof (cells_le sm pv np m ltb d t OK TT PV CR CP R1 (q_num q) SIZE r Hr).
      assert (q_num q * tm_nCells (t r) * 4 <= q_num q * length (sm_cells sm) * 4) by (apply Nat.mul_le_mono_r, Nat.mul_le_mono_l; auto). lia. }
    apply (acyclic_back sm pv np m ltb d t OK TT PV CR CP R1 A dec (q_omega q) (q_num q)).
    exact (C76_ends_acyclic _ _ R' (fun r c a => Some (psi r c a)) bnd0 S0 S G I H F).
  Qed.
End Sweep.
