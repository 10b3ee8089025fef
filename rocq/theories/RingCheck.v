(** Executable checks of [signs_ok], [parts_acyclic] and [normals_ok] for meshes given as data (used for examples only). *)
From Verif Require Import Prelude Bytes MeshModel MeshSpec CreateSpec TychoSpec MeshCheck GeometryModel GaussModel TransportModel ViewModel ViewSpec BitsSpec MainSpec HangCheck JacobiModel JacobiSpec.

Section Check.
  Context {T : Type} (A : arith T) (sm : smesh) (dec : N -> T) (om : nat -> q3 T).
  Definition opposed (nA : nat) (n n' : option (q3 T)) : bool := forallb (fun a => Bool.eqb (outOf A om a n) (negb (outOf A om a n'))) (seq 0 nA).
  Definition signsOkb (nA : nat) : bool :=
    forallb (fun e : N * scell => let (g, sc) := e in
      forallb (fun f => match SM_face sm f with
        | Some sf => forallb (fun h => if N.leb h g then true else match nthN (sm_cells sm) h with
            | Some sh => forallb (fun lf => if offFace sc lf sf then forallb (fun lf' => if offFace sh lf' sf then opposed nA (normalOf A sm dec g lf) (normalOf A sm dec h lf') else true) (seq 0 4) else true) (seq 0 4)
            | None => true end) (q2l (sf_cells sf))
        | None => true end) (q4l (sc_faces sc))) (idx (sm_cells sm)).
  Lemma signsOkb_ok nA : serial_mesh_ok sm -> signsOkb nA = true -> signs_ok A sm dec om nA.
  Proof.
    intros OK H. assert (K : forall a g lf h lf' f sf, a < nA -> s_opposite sm g lf f sf -> s_opposite sm h lf' f sf -> (g < h)%N -> b_out A sm dec om a g lf = negb (b_out A sm dec om a h lf')).
    { intros a g lf h lf' f sf Ha O O' LT. pose proof O as (sc & E & I & F & L & _). pose proof O' as (sh & E' & I' & _ & L' & _). unfold signsOkb in H. rewrite forallb_forall in H.
      specialize (H (g, sc) (idx_in _ _ _ E)). cbn beta iota in H. rewrite forallb_forall in H. specialize (H f I). cbn beta in H. rewrite F in H. rewrite forallb_forall in H.
      assert (IN : In h (q2l (sf_cells sf))). { destruct (smo_cf _ OK _ _ _ E' I') as (sf' & F' & IN & _). rewrite F in F'. apply Some_inj in F'. now subst sf'. }
      specialize (H h IN). cbn beta in H. rewrite (nthN_some _ _ _ E') in H. rewrite (proj2 (N.leb_gt h g) LT) in H.
      rewrite forallb_forall in H. specialize (H lf ltac:(apply in_seq; lia)). rewrite (off_face sm dec om g lf f sf sc O E) in H.
      rewrite forallb_forall in H. specialize (H lf' ltac:(apply in_seq; lia)). rewrite (off_face sm dec om h lf' f sf sh O' E') in H.
      unfold opposed in H. rewrite forallb_forall in H. specialize (H a ltac:(apply in_seq; lia)). rewrite !out_normal. now apply Bool.eqb_prop in H. }
    intros a g lf h lf' f sf Ha O O' NE. destruct (N.lt_total g h) as [LT|[->|LT]]; [exact (K a g lf h lf' f sf Ha O O' LT)|congruence|].
    rewrite (K a h lf' g lf f sf Ha O' O LT). now rewrite Bool.negb_involutive.
  Qed.

  Definition normalsb (nA : nat) : bool := forallb (fun e : N * scell => forallb (fun lf => match normalOf A sm dec (fst e) lf with Some _ => true | None => false end) (seq 0 4)) (idx (sm_cells sm)).
  Lemma normalsb_ok nA : normalsb nA = true -> normals_ok A sm dec om nA.
  Proof.
    intros H a g lf F P Ha Hlf HF HP X. unfold normalsb in H. rewrite forallb_forall in H. unfold b_cell in HP. destruct (SM_cell sm g) as [sc|] eqn:E; [|discriminate]. specialize (H (g, sc) (idx_in _ _ _ E)).
    rewrite forallb_forall in H. specialize (H lf ltac:(apply in_seq; lia)). cbn [fst] in H. unfold normalOf in H. rewrite HF in H. cbn [obind] in H. unfold b_cell in H. rewrite E, HP in H. cbn [obind] in H.
    unfold omegaDotN in X. destruct (getNormal A F P); discriminate.
  Qed.

  Context (together : N -> N -> bool) (lvl : nat -> N -> nat).
  Definition acyclicb (nA : nat) : bool :=
    forallb (fun e : N * scell => let (g, sc) := e in
      forallb (fun f => match SM_face sm f with
        | Some sf => if (s_across sf g =? INVALID)%N then true else if together g (s_across sf g) then forallb (fun lf => if offFace sc lf sf then forallb (fun a => if outOf A om a (normalOf A sm dec g lf) then true else lvl a (s_across sf g) <? lvl a g) (seq 0 nA) else true) (seq 0 4) else true
        | None => true end) (q4l (sc_faces sc))) (idx (sm_cells sm)).
  Lemma acyclicb_ok nA : acyclicb nA = true -> parts_acyclic A sm dec om nA together.
  Proof.
    intros H. exists lvl. intros a g lf h Ha (f & sf & O & <- & NI) TG B. pose proof O as (sc & E & I & F & L & _). unfold acyclicb in H. rewrite forallb_forall in H.
    specialize (H (g, sc) (idx_in _ _ _ E)). cbn beta iota in H. rewrite forallb_forall in H. specialize (H f I). cbn beta in H. rewrite F, (proj2 (N.eqb_neq _ _) NI), TG in H.
    rewrite forallb_forall in H. specialize (H lf ltac:(apply in_seq; lia)). rewrite (off_face sm dec om g lf f sf sc O E) in H.
    rewrite forallb_forall in H. specialize (H a ltac:(apply in_seq; lia)). cbn beta in H. rewrite <- out_normal in H. rewrite B in H. now apply Nat.ltb_lt in H.
  Qed.
End Check.
