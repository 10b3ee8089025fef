(** A traversal that ends has put the cells in an order: there are no cycles. *)
From Verif Require Import Prelude MeshModel TraverseModel TraverseSpec TraverseRun PropertiesTraverse.

Section Order.
  Context {V D : Type}.
  Variables (R : run V D) (val0 : nat -> nat -> nat -> V) (bnd0 : nat -> nat -> nat -> D).
  Hypothesis G : good_run R.
  Notation up := (upwind (u_dir R) (u_comm R) (u_ranks R) (u_mesh R) (u_mate R)).
  Definition inLog (S : gst V D) (a r c : nat) : Prop := r < u_ranks R /\ In (c, a) (g_log (g_r S r)).
  (** [lvl] counts the updates in the order in which they were made. *)
  Definition ordered (lvl : nat -> nat -> nat -> nat) (n : nat) (S : gst V D) : Prop :=
    forall a r c, inLog S a r c -> lvl r c a < n /\ forall q c', up a (q, c') (r, c) -> inLog S a q c' /\ lvl q c' a < lvl r c a.
  Lemma run_ordered S0 S : starts R val0 bnd0 S0 -> reaches R S0 S -> exists lvl n, ordered lvl n S.
  Proof.
    intros I H. induction H as [|S r l S' H (lvl & n & IH) Hr ST].
    - exists (fun _ _ _ => 0), 0. intros a r c (Hr & K). exfalso. destruct I as (I & _). specialize (I r Hr). unfold initRank in I. destruct (initQueue _ _ _ _ _ _ r); [|discriminate]. cbn [obind] in I. apply Some_inj in I. rewrite <- I in K. destruct K.
    - assert (OT : forall x, x <> r -> g_r S' x = g_r S x) by exact (other_step _ _ _ _ _ _ _ _ _ r S l S' ST).
      destruct (log_step _ _ _ _ _ _ _ _ _ r S l S' ST) as [E|(t & steps & c0 & a0 & p & r1 & r2 & ES & _)].
      + exists lvl, n. assert (LG : forall x, g_log (g_r S' x) = g_log (g_r S x)) by (intros x; destruct (Nat.eq_dec x r) as [->|N]; [exact E|now rewrite OT]).
        assert (LI : forall a r c, inLog S' a r c <-> inLog S a r c) by (intros; unfold inLog; now rewrite LG).
        intros a x c K. apply LI in K. destruct (IH a x c K) as (A & B). split; auto. intros q c' U. destruct (B q c' U). split; auto. now apply LI.
      + clear ES. destruct (list_eq_dec (fun x y : nat * nat => ltac:(decide equality; apply Nat.eq_dec)) (g_log (g_r S' r)) (g_log (g_r S r))) as [E|NE].
        { exists lvl, n. assert (LG : forall x, g_log (g_r S' x) = g_log (g_r S x)) by (intros x; destruct (Nat.eq_dec x r) as [->|N]; [exact E|now rewrite OT]).
          assert (LI : forall a r c, inLog S' a r c <-> inLog S a r c) by (intros; unfold inLog; now rewrite LG).
          intros a x c K. apply LI in K. destruct (IH a x c K) as (A & B). split; auto. intros q c' U. destruct (B q c' U). split; auto. now apply LI. }
        destruct (C29_after_upwind V D R val0 bnd0 S0 S r l S' G I H (conj Hr ST) NE) as (c & a & EL & UP & _).
        assert (H' : reaches R S0 S') by (eapply reach_step; eauto).
        destruct (C28_once V D R val0 bnd0 S0 S' G I H' r Hr) as (ND & _). rewrite EL in ND. apply NoDup_cons_iff in ND as (NI & _).
        set (lvl' := fun r' c' a' => if (r' =? r) && (c' =? c) && (a' =? a) then n else lvl r' c' a').
        assert (NEW : lvl' r c a = n) by (unfold lvl'; now rewrite !Nat.eqb_refl).
        assert (OLD : forall a' r' c', inLog S a' r' c' -> lvl' r' c' a' = lvl r' c' a').
        { intros a' r' c' (_ & K). unfold lvl'. destruct (Nat.eqb_spec r' r), (Nat.eqb_spec c' c), (Nat.eqb_spec a' a); auto. subst r' c' a'. easy. }
        assert (MONO : forall a' r' c', inLog S a' r' c' -> inLog S' a' r' c').
        { intros a' r' c' (K1 & K2). split; auto. destruct (Nat.eq_dec r' r) as [->|N]; [rewrite EL; now right|now rewrite OT]. }
        exists lvl', (n + 1). intros a' r' c' K.
        assert (CS : (a' = a /\ r' = r /\ c' = c) \/ inLog S a' r' c').
        { destruct K as (K1 & K2). destruct (Nat.eq_dec r' r) as [->|N]; [|right; split; auto; now rewrite OT in K2]. rewrite EL in K2. destruct K2 as [K2|K2]; [left; injection K2 as -> ->; auto|right; split; auto]. }
        destruct CS as [(-> & -> & ->)|K'].
        * rewrite NEW. split; [lia|]. intros q d (_ & _ & f & f' & Hf & Hm & Hi & Hc). destruct (UP f q d f' Hf Hi Hm Hc) as (IN & _).
          assert (Hq : q < u_ranks R). { destruct G as (G1 & _). pose proof (sf_sym _ _ _ _ _ G1 _ _ Hm) as Hb. now destruct (sf_range _ _ _ _ _ G1 _ _ _ _ Hb). }
          assert (KQ : inLog S a q d) by (split; auto). split; [auto|]. rewrite (OLD _ _ _ KQ). now destruct (IH a q d KQ).
        * rewrite (OLD _ _ _ K'). destruct (IH a' r' c' K') as (A & B). split; [lia|]. intros q d U. destruct (B q d U) as (KQ & LT). split; [auto|]. now rewrite (OLD _ _ _ KQ).
  Qed.
End Order.
