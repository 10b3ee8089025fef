(** C04: messages between ranks decode to what was encoded. *)
From Verif Require Import Prelude Bytes PacketModel PacketProofs.

(** Any list of packets, packed into one message, is unpacked to the same list; the message
    has the exact length, so the divisibility assertion never fires. *)
Theorem C04_message_roundtrip : forall dataSize (ps : list (N * N * bytes)),
  Forall (fun p => (fst (fst p) < 2^64)%N /\ (snd (fst p) < 2^64)%N /\ length (snd p) = dataSize) ps ->
  exists msg, packAll dataSize [] ps = Some msg /\ length msg = length ps * (16 + dataSize) /\
    exists out, unpackAll dataSize msg = Some out /\
      map (fun p => (fst (fst p), snd (fst p), firstn dataSize (snd p))) out = ps.
Proof. exact pack_unpack. Qed.
Print Assumptions C04_message_roundtrip.

Example C04_message_roundtrip_ex :
  match packAll 3 [] [(7, 300, [1; 2; 3])%N; (18446744073709551615, 0, [4; 5; 6])%N] with
  | Some msg => length msg = 38 /\ option_map (map (fun p => (fst (fst p), snd (fst p), firstn 3 (snd p)))) (unpackAll 3 msg)
                = Some [(7, 300, [1; 2; 3])%N; (18446744073709551615, 0, [4; 5; 6])%N]
  | None => False
  end.
Proof. vm_compute. split; reflexivity. Qed.

(** Face data of a cell sent among other packets ends up, bit for bit and vertex for vertex,
    in the receiver's boundary array at (group, vertex, angle, side), and nowhere else. *)
Theorem C04_face_data_end_to_end : forall nGroups old faceVal (b : bound4) gs angle side before after,
  (gs < 2^64)%N -> (angle < 2^64)%N ->
  (forall g f, g < nGroups -> f < 3 -> (faceVal g f < 2^64)%N) ->
  Forall (fun p => (fst (fst p) < 2^64)%N /\ (snd (fst p) < 2^64)%N /\
                   length (snd p) = nGroups * 3 * 8) (before ++ after) ->
  exists msg out d b',
    packAll (nGroups * 3 * 8) [] (before ++ (gs, angle, getData nGroups old faceVal) :: after) = Some msg /\
    unpackAll (nGroups * 3 * 8) msg = Some out /\
    nth_error out (length before) = Some (gs, angle, d) /\
    setSideData nGroups b side angle d = Some b' /\
    (forall g f, g < nGroups -> f < 3 -> b' g f angle side = faceVal g f) /\
    (forall g f a s, (a, s) <> (angle, side) -> b' g f a s = b g f a s).
Proof. exact end_to_end. Qed.
Print Assumptions C04_face_data_end_to_end.

Example C04_face_data_ex :
  let fv := fun g f => N.of_nat (1000 * g + f) in
  (forall g f, g < 2 -> f < 3 -> (fv g f < 2^64)%N) /\
  match unpackAll 48 (u64_bytes 9 ++ u64_bytes 4 ++ getData 2 (fun _ => 0%N) fv) with
  | Some [(9, 4, d)%N] =>
      match setSideData 2 (fun _ _ _ _ => 77%N) 5 4 d with
      | Some b' => b' 1 2 4%N 5%N = 1002%N /\ b' 1 2 4%N 6%N = 77%N
      | None => False
      end
  | _ => False
  end.
Proof.
  cbn zeta. split; [|vm_compute; split; reflexivity].
  intros g f Hg Hf. change (2^64)%N with 18446744073709551616%N. lia.
Qed.
