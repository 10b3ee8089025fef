(** Lemmas for PropertiesFlux: the loops of FluxModel. *)
From Coq Require Import Reals Lra.
From Verif Require Import Prelude MeshModel GeometryModel FluxModel FluxSpec.

Lemma filter_prod {X Y} (p : X -> bool) (q : Y -> bool) l m : filter (fun xy => p (fst xy) && q (snd xy)) (list_prod l m) = list_prod (filter p l) (filter q m).
Proof.
  induction l as [|x l IH]; cbn [list_prod filter]; auto. rewrite filter_app, IH. destruct (p x) eqn:E; cbn [list_prod].
  - f_equal. clear IH. induction m as [|y m IHm]; cbn [map filter]; auto. cbn [fst snd]. rewrite E. cbn [andb]. destruct (q y); cbn [map]; now rewrite IHm.
  - replace (filter _ (map (fun y => (x, y)) m)) with (@nil (X * Y)); auto. clear IH. induction m as [|y m IHm]; cbn [map filter]; auto. cbn [fst snd]. rewrite E. exact IHm.
Qed.
Lemma filter_eqb_seq c n s : filter (Nat.eqb c) (seq s n) = if (s <=? c) && (c <? s + n) then [c] else [].
Proof.
  revert s. induction n as [|n IH]; intros s; cbn [seq filter].
  - destruct (Nat.leb_spec s c), (Nat.ltb_spec c (s + 0)); cbn; auto; lia.
  - rewrite IH. destruct (Nat.eqb_spec c s) as [->|N].
    + destruct (Nat.leb_spec (S s) s); [lia|]. cbn [andb]. destruct (Nat.leb_spec s s), (Nat.ltb_spec s (s + S n)); cbn; auto; lia.
    + destruct (Nat.leb_spec (S s) c), (Nat.leb_spec s c), (Nat.ltb_spec c (S s + n)), (Nat.ltb_spec c (s + S n)); cbn; auto; lia.
Qed.
Lemma filter_true {X} (l : list X) : filter (fun _ => true) l = l. Proof. induction l; cbn; congruence. Qed.
Lemma prod_one {X Y} (l : list X) (y : Y) : list_prod l [y] = map (fun x => (x, y)) l. Proof. induction l; cbn; congruence. Qed.
Lemma prod_map_one {X Y Z} (f : Z -> X) (l : list Z) (y : Y) : list_prod (map f l) [y] = map (fun z => (f z, y)) l. Proof. induction l; cbn; congruence. Qed.
Lemma one_prod {X Y} (x : X) (l : list Y) : list_prod [x] l = map (fun y => (x, y)) l. Proof. cbn. apply app_nil_r. Qed.

(** A loop in which every step changes one entry, from the old value of that entry. *)
Section Writes.
  Context {K X E : Type}.
  Variables (get : E -> K -> X) (key : K -> K -> bool) (put : E -> K -> X -> E) (new : X -> K -> X).
  Hypothesis PUT : forall e k x k', get (put e k x) k' = if key k' k then x else get e k'.
  Hypothesis KEQ : forall e k k', key k' k = true -> get e k' = get e k.
  Lemma loop_entry l e k : get (fold_left (fun e k => put e k (new (get e k) k)) l e) k = fold_left (fun x k' => new x k') (filter (fun k' => key k k') l) (get e k).
  Proof.
    revert e. induction l as [|k' l IH]; intros e; cbn [fold_left filter]; auto. rewrite IH, PUT. destruct (key k k') eqn:H; cbn [fold_left]; auto. now rewrite (KEQ e k' k H).
  Qed.
End Writes.

Section Flux.
  Context {T : Type}.
  Variables (A : arith T) (pi : T) (nAngles nGroups : nat) (wt : nat -> T).
  Notation Phi := (nat -> nat -> nat -> T).
  Notation Psi := (nat -> nat -> nat -> nat -> T).
  Definition inside (nC c v g : nat) : bool := (c <? nC) && (v <? 4) && (g <? nGroups).
  Definition key3 (k k' : nat * nat * nat * nat) : bool := let '(c, _, v, g) := k in let '(c', _, v', g') := k' in (c =? c') && (v =? v') && (g =? g').
  Definition key4 (k k' : nat * nat * nat * nat) : bool := let '(c, a, v, g) := k in let '(c', a', v', g') := k' in (c =? c') && (a =? a') && (v =? v') && (g =? g').
  Lemma prod_nil {X Y} (l : list X) : list_prod l (@nil Y) = []. Proof. induction l; auto. Qed.
  Lemma filter_quad {W X Y Z} (p : W -> bool) (q : X -> bool) (r : Y -> bool) (s : Z -> bool) l1 l2 l3 l4 :
    filter (fun k => p (fst (fst (fst k))) && q (snd (fst (fst k))) && r (snd (fst k)) && s (snd k)) (list_prod (list_prod (list_prod l1 l2) l3) l4) =
    list_prod (list_prod (list_prod (filter p l1) (filter q l2)) (filter r l3)) (filter s l4).
  Proof.
    rewrite <- (filter_prod p q). rewrite <- (filter_prod (fun k => p (fst k) && q (snd k)) r). rewrite <- (filter_prod (fun k => p (fst (fst k)) && q (snd (fst k)) && r (snd k)) s). reflexivity.
  Qed.
  Lemma quad_key3 nC c a v g : filter (key3 (c, a, v, g)) (quad nAngles nGroups nC) = if inside nC c v g then map (fun a => (c, a, v, g)) (seq 0 nAngles) else [].
  Proof.
    rewrite (filter_ext (key3 (c, a, v, g)) (fun k => Nat.eqb c (fst (fst (fst k))) && (fun _ => true) (snd (fst (fst k))) && Nat.eqb v (snd (fst k)) && Nat.eqb g (snd k))).
    2:{ intros [[[c' a'] v'] g']. cbn. now rewrite andb_true_r. }
    unfold quad. rewrite (filter_quad (Nat.eqb c) (fun _ => true) (Nat.eqb v) (Nat.eqb g)), filter_true, !filter_eqb_seq. cbn [plus Nat.leb andb]. unfold inside.
    destruct (c <? nC); cbn [andb]; [|reflexivity]. destruct (v <? 4); cbn [andb]; [|now rewrite prod_nil]. destruct (g <? nGroups); cbn [andb]; [|now rewrite prod_nil].
    now rewrite one_prod, !prod_map_one.
  Qed.
  Lemma quad_key4 nC c a v g : filter (key4 (c, a, v, g)) (quad nAngles nGroups nC) = if inside nC c v g && (a <? nAngles) then [(c, a, v, g)] else [].
  Proof.
    rewrite (filter_ext (key4 (c, a, v, g)) (fun k => Nat.eqb c (fst (fst (fst k))) && Nat.eqb a (snd (fst (fst k))) && Nat.eqb v (snd (fst k)) && Nat.eqb g (snd k))).
    2:{ intros [[[c' a'] v'] g']. reflexivity. }
    unfold quad. rewrite (filter_quad (Nat.eqb c) (Nat.eqb a) (Nat.eqb v) (Nat.eqb g)), !filter_eqb_seq. cbn [plus Nat.leb andb]. unfold inside.
    destruct (c <? nC), (a <? nAngles), (v <? 4), (g <? nGroups); reflexivity.
  Qed.
  Definition tkey (k k' : nat * nat * nat) : bool := let '(c, v, g) := k in let '(c', v', g') := k' in (c =? c') && (v =? v') && (g =? g').
  Lemma tri_key nC c v g : filter (tkey (c, v, g)) (tri nGroups nC) = if inside nC c v g then [(c, v, g)] else [].
  Proof.
    rewrite (filter_ext (tkey (c, v, g)) (fun k => (fun k => Nat.eqb c (fst k) && Nat.eqb v (snd k)) (fst k) && Nat.eqb g (snd k))).
    2:{ intros [[c' v'] g']. reflexivity. }
    unfold tri. rewrite <- (filter_prod (Nat.eqb c) (Nat.eqb v)) at 1 || idtac.
    assert (E : filter (fun k => (fun k => Nat.eqb c (fst k) && Nat.eqb v (snd k)) (fst k) && Nat.eqb g (snd k)) (list_prod (list_prod (seq 0 nC) (seq 0 4)) (seq 0 nGroups)) =
      list_prod (list_prod (filter (Nat.eqb c) (seq 0 nC)) (filter (Nat.eqb v) (seq 0 4))) (filter (Nat.eqb g) (seq 0 nGroups))).
    { rewrite <- (filter_prod (Nat.eqb c) (Nat.eqb v)). rewrite <- (filter_prod (fun k => Nat.eqb c (fst k) && Nat.eqb v (snd k)) (Nat.eqb g)). reflexivity. }
    etransitivity; [exact E|]. rewrite !filter_eqb_seq. cbn [plus Nat.leb andb]. unfold inside. destruct (c <? nC), (v <? 4), (g <? nGroups); reflexivity.
  Qed.

  Definition at3 (phi : Phi) (k : nat * nat * nat * nat) : T := let '(c, _, v, g) := k in phi c v g.
  Definition at4 (psi : Psi) (k : nat * nat * nat * nat) : T := let '(c, a, v, g) := k in psi c a v g.
  Definition att (phi : Phi) (k : nat * nat * nat) : T := let '(c, v, g) := k in phi c v g.
  Definition put3 (phi : Phi) (k : nat * nat * nat * nat) (x : T) : Phi := let '(c, _, v, g) := k in upd3 phi c v g x.
  Definition put4 (psi : Psi) (k : nat * nat * nat * nat) (x : T) : Psi := let '(c, a, v, g) := k in upd4 psi c a v g x.
  Definition putt (phi : Phi) (k : nat * nat * nat) (x : T) : Phi := let '(c, v, g) := k in upd3 phi c v g x.
  Lemma put3_at e k x k' : at3 (put3 e k x) k' = if key3 k' k then x else at3 e k'.
  Proof. destruct k as [[[c a] v] g], k' as [[[c' a'] v'] g']. reflexivity. Qed.
  Lemma put4_at e k x k' : at4 (put4 e k x) k' = if key4 k' k then x else at4 e k'.
  Proof. destruct k as [[[c a] v] g], k' as [[[c' a'] v'] g']. reflexivity. Qed.
  Lemma putt_at e k x k' : att (putt e k x) k' = if tkey k' k then x else att e k'.
  Proof. destruct k as [[c v] g], k' as [[c' v'] g']. reflexivity. Qed.
  Lemma key3_at e k k' : key3 k' k = true -> at3 e k' = at3 e k.
  Proof. destruct k as [[[c a] v] g], k' as [[[c' a'] v'] g']. cbn. rewrite !andb_true_iff, !Nat.eqb_eq. now intros ((-> & ->) & ->). Qed.
  Lemma key4_at e k k' : key4 k' k = true -> at4 e k' = at4 e k.
  Proof. destruct k as [[[c a] v] g], k' as [[[c' a'] v'] g']. cbn. rewrite !andb_true_iff, !Nat.eqb_eq. now intros (((-> & ->) & ->) & ->). Qed.
  Lemma tkey_at e k k' : tkey k' k = true -> att e k' = att e k.
  Proof. destruct k as [[c v] g], k' as [[c' v'] g']. cbn. rewrite !andb_true_iff, !Nat.eqb_eq. now intros ((-> & ->) & ->). Qed.
  Lemma fold_ext {X Y} (f h : X -> Y -> X) l x : (forall x y, f x y = h x y) -> fold_left f l x = fold_left h l x.
  Proof. intros E. revert x. induction l as [|y l IH]; intros x; cbn; auto. now rewrite E, IH. Qed.

  Lemma psiToPhi_eq nC psi c v g : psiToPhi A nAngles nGroups wt nC psi c v g =
    if inside nC c v g then fold_left (fun s a => aadd A s (amul A (psi c a v g) (wt a))) (seq 0 nAngles) (azero A) else azero A.
  Proof.
    set (new := fun (x : T) (k : nat * nat * nat * nat) => let '(c, a, v, g) := k in aadd A x (amul A (psi c a v g) (wt a))).
    transitivity (at3 (fold_left (fun e k => put3 e k (new (at3 e k) k)) (quad nAngles nGroups nC) (fun _ _ _ => azero A)) (c, 0, v, g)).
    { unfold psiToPhi. cbn [at3]. rewrite (fold_ext _ (fun e k => put3 e k (new (at3 e k) k))); [reflexivity|]. intros e [[[c' a'] v'] g']. reflexivity. }
    rewrite (loop_entry at3 key3 put3 new put3_at key3_at), quad_key3. destruct (inside nC c v g); [|reflexivity]. cbn [at3].
    generalize (azero A). induction (seq 0 nAngles) as [|a l IH]; intros x; cbn [map fold_left]; auto.
  Qed.
  Lemma phiToPsi_eq nC (phi : Phi) (psi : Psi) c a v g : phiToPsi nAngles nGroups nC phi psi c a v g = if inside nC c v g && (a <? nAngles) then phi c v g else psi c a v g.
  Proof.
    set (new := fun (x : T) (k : nat * nat * nat * nat) => let '(c, a, v, g) := k in phi c v g).
    transitivity (at4 (fold_left (fun e k => put4 e k (new (at4 e k) k)) (quad nAngles nGroups nC) psi) (c, a, v, g)).
    { unfold phiToPsi. cbn [at4]. rewrite (fold_ext _ (fun e k => put4 e k (new (at4 e k) k))); [reflexivity|]. intros e [[[c' a'] v'] g']. reflexivity. }
    rewrite (loop_entry at4 key4 put4 new put4_at key4_at), quad_key4. destruct (inside nC c v g && (a <? nAngles)); reflexivity.
  Qed.
  Lemma total_eq nC (sigmaS : nat -> T) (source : Psi) (phi : Phi) (total : Psi) c a v g : calcTotalSource A pi nAngles nGroups nC sigmaS source phi total c a v g = if inside nC c v g && (a <? nAngles) then aadd A (source c a v g) (amul A (adiv A (sigmaS c) (amul A (alit A 4) pi)) (phi c v g)) else total c a v g.
  Proof.
    set (new := fun (x : T) (k : nat * nat * nat * nat) => let '(c, a, v, g) := k in aadd A (source c a v g) (amul A (adiv A (sigmaS c) (amul A (alit A 4) pi)) (phi c v g))).
    transitivity (at4 (fold_left (fun e k => put4 e k (new (at4 e k) k)) (quad nAngles nGroups nC) total) (c, a, v, g)).
    { unfold calcTotalSource. cbn [at4]. rewrite (fold_ext _ (fun e k => put4 e k (new (at4 e k) k))); [reflexivity|]. intros e [[[c' a'] v'] g']. reflexivity. }
    rewrite (loop_entry at4 key4 put4 new put4_at key4_at), quad_key4. destruct (inside nC c v g && (a <? nAngles)); reflexivity.
  Qed.
  Lemma totalAliased_eq nC (sigmaS : nat -> T) (source : Psi) (phi : Phi) c a v g : calcTotalSourceAliased A pi nAngles nGroups nC sigmaS source phi c a v g = if inside nC c v g && (a <? nAngles) then aadd A (source c a v g) (amul A (adiv A (sigmaS c) (amul A (alit A 4) pi)) (phi c v g)) else source c a v g.
  Proof.
    set (new := fun (x : T) (k : nat * nat * nat * nat) => let '(c, a, v, g) := k in aadd A x (amul A (adiv A (sigmaS c) (amul A (alit A 4) pi)) (phi c v g))).
    transitivity (at4 (fold_left (fun e k => put4 e k (new (at4 e k) k)) (quad nAngles nGroups nC) source) (c, a, v, g)).
    { unfold calcTotalSourceAliased. cbn [at4]. rewrite (fold_ext _ (fun e k => put4 e k (new (at4 e k) k))); [reflexivity|]. intros e [[[c' a'] v'] g']. reflexivity. }
    rewrite (loop_entry at4 key4 put4 new put4_at key4_at), quad_key4. destruct (inside nC c v g && (a <? nAngles)); reflexivity.
  Qed.
  Lemma operatorS_eq nC (sigmaS : nat -> T) (phi1 phi2 : Phi) c v g : operatorS A pi nGroups nC sigmaS phi1 phi2 c v g = if inside nC c v g then amul A (adiv A (sigmaS c) (amul A (alit A 4) pi)) (phi1 c v g) else phi2 c v g.
  Proof.
    set (new := fun (x : T) (k : nat * nat * nat) => let '(c, v, g) := k in amul A (adiv A (sigmaS c) (amul A (alit A 4) pi)) (phi1 c v g)).
    transitivity (att (fold_left (fun e k => putt e k (new (att e k) k)) (tri nGroups nC) phi2) (c, v, g)).
    { unfold operatorS. cbn [att]. rewrite (fold_ext _ (fun e k => putt e k (new (att e k) k))); [reflexivity|]. intros e [[c' v'] g']. reflexivity. }
    rewrite (loop_entry att tkey putt new putt_at tkey_at), tri_key. destruct (inside nC c v g); reflexivity.
  Qed.
  Lemma operatorSAliased_eq nC (sigmaS : nat -> T) (phi : Phi) c v g : operatorSAliased A pi nGroups nC sigmaS phi c v g = if inside nC c v g then amul A (adiv A (sigmaS c) (amul A (alit A 4) pi)) (phi c v g) else phi c v g.
  Proof.
    set (new := fun (x : T) (k : nat * nat * nat) => let '(c, v, g) := k in amul A (adiv A (sigmaS c) (amul A (alit A 4) pi)) x).
    transitivity (att (fold_left (fun e k => putt e k (new (att e k) k)) (tri nGroups nC) phi) (c, v, g)).
    { unfold operatorSAliased. cbn [att]. rewrite (fold_ext _ (fun e k => putt e k (new (att e k) k))); [reflexivity|]. intros e [[c' v'] g']. reflexivity. }
    rewrite (loop_entry att tkey putt new putt_at tkey_at), tri_key. destruct (inside nC c v g); reflexivity.
  Qed.
End Flux.
