(** The mesh util/cube-12.smesh that comes with the program: the cube [0, 100]^3 cut into twelve tetrahedra that meet at its centre. *)
From Coq Require Import NArith.
From Verif Require Import Prelude Bytes MeshModel.
Local Open Scope N_scope.

(** util/cube-12.smesh, bytes 32-2343 as 64-bit words (bytes 0-31 are the name of the format): the header ... *)
Definition cubeHeader : list N := [2; 12; 30; 9].
(** ... cells (4 faces, 4 nodes, material) ... *)
Definition cubeCells : list (list N) := [
  [2; 12; 13; 14; 4; 6; 7; 8; 1];
  [0; 15; 16; 17; 0; 2; 3; 8; 1];
  [1; 16; 18; 19; 0; 1; 3; 8; 1];
  [8; 19; 20; 21; 1; 3; 5; 8; 1];
  [9; 21; 22; 23; 3; 5; 7; 8; 1];
  [6; 17; 23; 24; 2; 3; 7; 8; 1];
  [10; 15; 25; 26; 0; 2; 4; 8; 1];
  [5; 25; 27; 28; 0; 4; 5; 8; 1];
  [3; 14; 22; 28; 4; 5; 7; 8; 1];
  [11; 13; 26; 29; 2; 4; 6; 8; 1];
  [7; 12; 24; 29; 2; 6; 7; 8; 1];
  [4; 18; 20; 27; 0; 1; 5; 8; 1]].
(** ... faces (2 cells, 3 nodes) ... *)
Definition cubeFaces : list (list N) := [
  [1; INVALID; 0; 2; 3];
  [2; INVALID; 0; 1; 3];
  [0; INVALID; 4; 6; 7];
  [8; INVALID; 4; 5; 7];
  [11; INVALID; 0; 1; 5];
  [7; INVALID; 0; 4; 5];
  [5; INVALID; 2; 3; 7];
  [10; INVALID; 2; 6; 7];
  [3; INVALID; 1; 3; 5];
  [4; INVALID; 3; 5; 7];
  [6; INVALID; 0; 2; 4];
  [9; INVALID; 2; 4; 6];
  [0; 10; 6; 7; 8];
  [0; 9; 4; 6; 8];
  [0; 8; 4; 7; 8];
  [1; 6; 0; 2; 8];
  [1; 2; 0; 3; 8];
  [1; 5; 2; 3; 8];
  [2; 11; 0; 1; 8];
  [2; 3; 1; 3; 8];
  [3; 11; 1; 5; 8];
  [3; 4; 3; 5; 8];
  [4; 8; 5; 7; 8];
  [4; 5; 3; 7; 8];
  [5; 10; 2; 7; 8];
  [6; 7; 0; 4; 8];
  [6; 9; 2; 4; 8];
  [7; 11; 0; 5; 8];
  [7; 8; 4; 5; 8];
  [9; 10; 2; 6; 8]].
(** ... and nodes (the bits of 3 doubles; 0x4059000000000000 is 100). *)
Definition cubeNodes : list (list N) := [
  [0; 0; 0x4059000000000000];
  [0; 0; 0];
  [0; 0x4059000000000000; 0x4059000000000000];
  [0; 0x4059000000000000; 0];
  [0x4059000000000000; 0; 0x4059000000000000];
  [0x4059000000000000; 0; 0];
  [0x4059000000000000; 0x4059000000000000; 0x4059000000000000];
  [0x4059000000000000; 0x4059000000000000; 0];
  [0x4048fffffff78cfe; 0x40490000006a9e3c; 0x4048fffffff78cfc]].
Definition cubeFile : bytes := serialName ++ words_bytes (cubeHeader ++ concat cubeCells ++ concat cubeFaces ++ concat cubeNodes).

(** The same as a SerialMesh. *)
Definition cubeMesh : smesh :=
  mkSmesh serialName 2 12 30 9
    (map (fun l => match l with [a; b; c; d; e; f; g; h; m] => mkScell (Q4 a b c d) (Q4 e f g h) m | _ => mkScell (Q4 0 0 0 0) (Q4 0 0 0 0) 0 end) cubeCells)
    (map (fun l => match l with [a; b; c; d; e] => mkSface (Q2 a b) (Q3 c d e) | _ => mkSface (Q2 0 0) (Q3 0 0 0) end) cubeFaces)
    (map (fun l => match l with [a; b; c] => mkSnode (Q3 a b c) | _ => mkSnode (Q3 0 0 0) end) cubeNodes).
Lemma cube_read : serialRead cubeFile = Some cubeMesh.
Proof. vm_compute. reflexivity. Qed.

(** Bits of the eight directions of S2 (src/Quadrature.cc:230-242 with n = 2): xi, eta, mu as the usual C library gives sqrt, cos and sin. *)
Definition s2Bits : list (q3 N) := [
  Q3 0x3fe279a74590331d 0x3fe279a74590331c 0xbfe279a74590331c;
  Q3 0xbfe279a74590331c 0x3fe279a74590331d 0xbfe279a74590331c;
  Q3 0xbfe279a74590331d 0xbfe279a74590331c 0xbfe279a74590331c;
  Q3 0x3fe279a74590331b 0xbfe279a74590331d 0xbfe279a74590331c;
  Q3 0x3fe279a74590331d 0x3fe279a74590331c 0x3fe279a74590331c;
  Q3 0xbfe279a74590331c 0x3fe279a74590331d 0x3fe279a74590331c;
  Q3 0xbfe279a74590331d 0xbfe279a74590331c 0x3fe279a74590331c;
  Q3 0x3fe279a74590331b 0xbfe279a74590331d 0x3fe279a74590331c].
