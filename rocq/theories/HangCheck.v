(** An executable check of [signs_fit] for meshes given as data (used for examples only). *)
From Verif Require Import Prelude Bytes MeshModel MeshSpec CreateSpec TychoSpec MeshCheck GeometryModel GaussModel ViewModel ViewSpec BitsSpec.

Section Check.
  Context {T : Type} (A : arith T) (sm : smesh) (dec : N -> T) (om : nat -> q3 T).
  Definition normalOf (g : N) (lf : nat) : option (q3 T) := let* F := b_face sm dec g lf in let* P := b_cell sm dec g in getNormal A F P.
  Definition outOf (a : nat) (n : option (q3 T)) : bool := agt A (orZero A (option_map (vdot A (om a)) n)) (azero A).
  Definition neverBoth (nA : nat) (n n' : option (q3 T)) : bool := forallb (fun a => if outOf a n then negb (outOf a n') else true) (seq 0 nA).
  (** Vertex [lf] of the cell is not on the face. *)
  Definition offFace (sc : scell) (lf : nat) (sf : sface) : bool := match nth_error (q4l (sc_nodes sc)) lf with Some n => negb (memN n (q3l (sf_nodes sf))) | None => false end.
  Definition signsFitb (nA : nat) : bool :=
    forallb (fun e : N * scell => let (g, sc) := e in
      forallb (fun f => match SM_face sm f with
        | Some sf => forallb (fun h => if N.leb h g then true else match nthN (sm_cells sm) h with
            | Some sh => forallb (fun lf => if offFace sc lf sf then forallb (fun lf' => if offFace sh lf' sf then neverBoth nA (normalOf g lf) (normalOf h lf') else true) (seq 0 4) else true) (seq 0 4)
            | None => true end) (q2l (sf_cells sf))
        | None => true end) (q4l (sc_faces sc))) (idx (sm_cells sm)).

  Lemma out_normal a g lf : b_out A sm dec om a g lf = outOf a (normalOf g lf).
  Proof.
    unfold b_out, outOf, b_omN, normalOf. destruct (b_face sm dec g lf) as [F|]; [|reflexivity]. cbn [obind]. destruct (b_cell sm dec g) as [P|]; [|reflexivity]. cbn [obind]. unfold omegaDotN.
    now destruct (getNormal A F P).
  Qed.
  Lemma off_face g lf f sf sc : s_opposite sm g lf f sf -> SM_cell sm g = Some sc -> offFace sc lf sf = true.
  Proof.
    intros (sc' & E & _ & _ & L & V) E'. rewrite E' in E. apply Some_inj in E. subst sc'. unfold offFace. assert (K : exists n, nth_error (q4l (sc_nodes sc)) lf = Some n) by (destruct lf as [|[|[|[|lf]]]]; cbn; eauto; lia).
    destruct K as (n & K). rewrite K. apply Bool.negb_true_iff. destruct (memN n (q3l (sf_nodes sf))) eqn:X; auto. apply memN_spec in X. apply (V lf n K) in X. congruence.
  Qed.
  Lemma signsFitb_ok nA : serial_mesh_ok sm -> signsFitb nA = true -> signs_fit A sm dec om nA.
  Proof.
    intros OK H. assert (K : forall a g lf h lf' f sf, a < nA -> s_opposite sm g lf f sf -> s_opposite sm h lf' f sf -> (g < h)%N -> (b_out A sm dec om a g lf && b_out A sm dec om a h lf')%bool = false).
    { intros a g lf h lf' f sf Ha O O' LT. pose proof O as (sc & E & I & F & L & _). pose proof O' as (sh & E' & I' & _ & L' & _). unfold signsFitb in H. rewrite forallb_forall in H.
      specialize (H (g, sc) (idx_in _ _ _ E)). cbn beta iota in H. rewrite forallb_forall in H. specialize (H f I). cbn beta in H. rewrite F in H. rewrite forallb_forall in H.
      assert (IN : In h (q2l (sf_cells sf))). { destruct (smo_cf _ OK _ _ _ E' I') as (sf' & F' & IN & _). rewrite F in F'. apply Some_inj in F'. now subst sf'. }
      specialize (H h IN). cbn beta in H. rewrite (nthN_some _ _ _ E') in H. rewrite (proj2 (N.leb_gt h g) LT) in H.
      rewrite forallb_forall in H. specialize (H lf ltac:(apply in_seq; lia)). rewrite (off_face g lf f sf sc O E) in H.
      rewrite forallb_forall in H. specialize (H lf' ltac:(apply in_seq; lia)). rewrite (off_face h lf' f sf sh O' E') in H.
      unfold neverBoth in H. rewrite forallb_forall in H. specialize (H a ltac:(apply in_seq; lia)). rewrite !out_normal. destruct (outOf a (normalOf g lf)); [now apply Bool.negb_true_iff in H|reflexivity]. }
    intros a g lf h lf' f sf Ha O O' NE B. destruct (N.lt_total g h) as [LT|[->|LT]]; [|congruence|].
    - specialize (K a g lf h lf' f sf Ha O O' LT). rewrite B in K. exact K.
    - specialize (K a h lf' g lf f sf Ha O' O LT). rewrite B, Bool.andb_true_r in K. exact K.
  Qed.
End Check.
