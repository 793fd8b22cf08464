(** Generated: the decisions of the tetrahedron subdivision as a tree, one for
    every set of flagged edges (in the order of [all_bits 6]). A leaf holds the
    cells, and a renaming of one of the subdivisions of RefineTetBase.v that
    gives the same cells. That the trees agree with the model is proved in
    RefineTetCheck.v. *)
From Coq Require Import List.
Import ListNotations.

Inductive dtree : Type :=
| DLeaf (P : list (list nat)) (s : list nat) (b : nat)
| DFail
| DCmp (a b c d : nat) (t f : dtree)
| DDle (a b c d : nat) (t f : dtree).

Definition trees : list dtree :=
 [(DLeaf [[0;1;2;3]] [0;1;2;3] 0);
  (DLeaf [[3;9;1;0];[9;2;1;0]] [2;0;1;3] 1);
  (DLeaf [[3;8;0;2];[8;1;0;2]] [1;0;2;3] 1);
  (DCmp 1 3 2 3 (DLeaf [[8;3;9;0];[1;8;2;0];[8;9;2;0]] [1;2;0;3] 2) (DLeaf [[8;3;9;0];[1;8;9;0];[1;9;2;0]] [2;1;0;3] 2));
  (DLeaf [[1;7;0;3];[7;2;0;3]] [1;0;3;2] 1);
  (DCmp 3 2 1 2 (DLeaf [[9;2;7;0];[3;9;1;0];[9;7;1;0]] [3;1;0;2] 2) (DLeaf [[9;2;7;0];[3;9;7;0];[3;7;1;0]] [1;3;0;2] 2));
  (DCmp 2 1 3 1 (DLeaf [[7;1;8;0];[2;7;3;0];[7;8;3;0]] [2;3;0;1] 2) (DLeaf [[7;1;8;0];[2;7;8;0];[2;8;3;0]] [3;2;0;1] 2));
  (DLeaf [[2;7;9;0];[7;8;9;0];[7;1;8;0];[9;8;3;0]] [1;0;2;3] 5);
  (DLeaf [[0;6;1;2];[6;3;1;2]] [0;1;2;3] 1);
  (DCmp 2 3 0 3 (DLeaf [[9;3;6;1];[2;9;0;1];[9;6;0;1]] [2;0;1;3] 2) (DLeaf [[9;3;6;1];[2;9;6;1];[2;6;0;1]] [0;2;1;3] 2));
  (DCmp 0 3 1 3 (DLeaf [[6;3;8;2];[0;6;1;2];[6;8;1;2]] [0;1;2;3] 2) (DLeaf [[6;3;8;2];[0;6;8;2];[0;8;1;2]] [1;0;2;3] 2));
  (DCmp 0 3 3 1 (DCmp 3 2 3 1 (DCmp 3 2 0 3 (DLeaf [[6;3;8;9];[0;9;1;2];[0;6;1;9];[6;8;1;9]] [2;0;1;3] 3) (DLeaf [[6;3;8;9];[0;6;1;2];[2;6;1;9];[6;8;1;9]] [0;2;1;3] 3)) (DCmp 3 2 0 3 (DFail) (DLeaf [[6;3;8;9];[0;6;1;2];[6;8;1;2];[6;9;8;2]] [0;1;2;3] 3))) (DCmp 3 2 3 1 (DCmp 3 2 0 3 (DLeaf [[6;3;8;9];[0;6;8;9];[0;9;8;1];[0;9;1;2]] [2;1;0;3] 3) (DFail)) (DCmp 3 2 0 3 (DLeaf [[6;3;8;9];[0;6;8;9];[0;9;8;2];[0;8;1;2]] [1;2;0;3] 3) (DLeaf [[6;3;8;9];[0;6;8;2];[6;8;2;9];[0;8;1;2]] [1;0;2;3] 3))));
  (DLeaf [[6;0;2;7];[6;0;7;1];[3;6;2;7];[3;6;7;1]] [0;1;3;2] 6);
  (DCmp 3 2 3 0 (DCmp 3 2 2 1 (DLeaf [[9;2;7;0];[3;9;1;6];[6;9;1;0];[9;7;1;0]] [2;0;1;3] 4) (DLeaf [[9;2;7;0];[3;9;7;6];[3;7;1;6];[6;9;7;0];[6;7;1;0]] [2;0;1;3] 7)) (DCmp 3 2 2 1 (DLeaf [[9;2;7;6];[6;2;7;0];[6;7;1;0];[3;9;1;6];[6;9;7;1]] [3;1;0;2] 7) (DLeaf [[9;2;7;6];[6;2;7;0];[6;7;1;0];[3;9;7;6];[3;7;1;6]] [0;1;3;2] 9)));
  (DCmp 0 3 3 1 (DCmp 3 1 1 2 (DLeaf [[0;6;1;7];[0;6;7;2];[6;8;1;7];[6;3;8;2];[6;8;7;2]] [3;2;0;1] 7) (DLeaf [[0;6;1;7];[0;6;7;2];[6;8;1;7];[6;3;7;2];[6;3;8;7]] [0;2;3;1] 9)) (DCmp 3 1 1 2 (DLeaf [[0;6;8;2];[0;8;7;2];[0;8;1;7];[6;3;8;2]] [1;0;2;3] 4) (DLeaf [[0;6;8;7];[0;6;7;2];[0;8;1;7];[6;3;8;7];[6;3;7;2]] [1;0;2;3] 7)));
  (DCmp 2 3 0 3 (DCmp 0 3 1 3 (DLeaf [[2;0;7;9];[9;6;8;3];[9;0;7;6];[9;6;7;8];[0;1;7;6];[7;6;1;8]] [2;0;1;3] 10) (DLeaf [[2;0;7;9];[9;6;8;3];[9;0;8;6];[9;0;7;8];[0;1;7;8]] [1;0;2;3] 8)) (DCmp 0 3 1 3 (DLeaf [[2;0;7;6];[2;6;7;9];[9;6;8;3];[9;6;7;8];[0;1;7;6];[7;6;1;8]] [0;1;3;2] 14) (DLeaf [[2;0;7;6];[2;6;7;9];[9;6;8;3];[9;6;7;8];[6;0;7;8];[7;0;1;8]] [1;0;2;3] 10)));
  (DLeaf [[2;5;1;3];[5;0;1;3]] [0;1;3;2] 1);
  (DCmp 0 2 3 2 (DLeaf [[5;2;9;1];[0;5;3;1];[5;9;3;1]] [0;3;1;2] 2) (DLeaf [[5;2;9;1];[0;5;9;1];[0;9;3;1]] [3;0;1;2] 2));
  (DLeaf [[5;0;1;8];[5;0;8;3];[2;5;1;8];[2;5;8;3]] [0;1;2;3] 6);
  (DCmp 1 3 3 2 (DCmp 3 2 2 0 (DLeaf [[1;8;2;5];[1;8;5;0];[8;9;2;5];[8;3;9;0];[8;9;5;0]] [3;0;1;2] 7) (DLeaf [[1;8;2;5];[1;8;5;0];[8;9;2;5];[8;3;5;0];[8;3;9;5]] [0;1;2;3] 9)) (DCmp 3 2 2 0 (DLeaf [[1;8;9;0];[1;9;5;0];[1;9;2;5];[8;3;9;0]] [2;1;0;3] 4) (DLeaf [[1;8;9;5];[1;8;5;0];[1;9;2;5];[8;3;9;5];[8;3;5;0]] [2;1;0;3] 7)));
  (DCmp 1 2 0 2 (DLeaf [[7;2;5;3];[1;7;0;3];[7;5;0;3]] [1;0;3;2] 2) (DLeaf [[7;2;5;3];[1;7;5;3];[1;5;0;3]] [0;1;3;2] 2));
  (DCmp 1 2 2 0 (DCmp 2 3 2 0 (DCmp 2 3 1 2 (DLeaf [[7;2;5;9];[1;9;0;3];[1;7;0;9];[7;5;0;9]] [3;1;0;2] 3) (DLeaf [[7;2;5;9];[1;7;0;3];[3;7;0;9];[7;5;0;9]] [1;3;0;2] 3)) (DCmp 2 3 1 2 (DFail) (DLeaf [[7;2;5;9];[1;7;0;3];[7;5;0;3];[7;9;5;3]] [1;0;3;2] 3))) (DCmp 2 3 2 0 (DCmp 2 3 1 2 (DLeaf [[7;2;5;9];[1;7;5;9];[1;9;5;0];[1;9;0;3]] [3;0;1;2] 3) (DFail)) (DCmp 2 3 1 2 (DLeaf [[7;2;5;9];[1;7;5;9];[1;9;5;3];[1;5;0;3]] [0;3;1;2] 3) (DLeaf [[7;2;5;9];[1;7;5;3];[7;5;3;9];[1;5;0;3]] [0;1;3;2] 3))));
  (DCmp 1 2 1 3 (DCmp 1 2 2 0 (DLeaf [[7;2;5;3];[1;7;0;8];[8;7;0;3];[7;5;0;3]] [1;0;3;2] 4) (DLeaf [[7;2;5;3];[1;7;5;8];[1;5;0;8];[8;7;5;3];[8;5;0;3]] [2;3;0;1] 7)) (DCmp 1 2 2 0 (DLeaf [[7;2;5;8];[8;2;5;3];[8;5;0;3];[1;7;0;8];[8;7;5;0]] [1;0;3;2] 7) (DLeaf [[7;2;5;8];[8;2;5;3];[8;5;0;3];[1;7;5;8];[1;5;0;8]] [0;3;2;1] 9)));
  (DCmp 1 2 0 2 (DCmp 0 2 3 2 (DLeaf [[1;0;8;7];[7;5;9;2];[7;0;8;5];[7;5;8;9];[0;3;8;5];[8;5;3;9]] [1;0;3;2] 10) (DLeaf [[1;0;8;7];[7;5;9;2];[7;0;9;5];[7;0;8;9];[0;3;8;9]] [1;0;3;2] 8)) (DCmp 0 2 3 2 (DLeaf [[1;0;8;5];[1;5;8;7];[7;5;9;2];[7;5;8;9];[0;3;8;5];[8;5;3;9]] [0;1;2;3] 14) (DLeaf [[1;0;8;5];[1;5;8;7];[7;5;9;2];[7;5;8;9];[5;0;8;9];[8;0;3;9]] [3;0;1;2] 10)));
  (DCmp 3 0 2 0 (DLeaf [[6;0;5;1];[3;6;2;1];[6;5;2;1]] [3;2;1;0] 2) (DLeaf [[6;0;5;1];[3;6;5;1];[3;5;2;1]] [2;3;1;0] 2));
  (DLeaf [[3;6;9;1];[6;5;9;1];[6;0;5;1];[9;5;2;1]] [0;1;2;3] 5);
  (DCmp 3 0 3 1 (DCmp 3 0 0 2 (DLeaf [[6;0;5;1];[3;6;2;8];[8;6;2;1];[6;5;2;1]] [0;1;2;3] 4) (DLeaf [[6;0;5;1];[3;6;5;8];[3;5;2;8];[8;6;5;1];[8;5;2;1]] [0;1;2;3] 7)) (DCmp 3 0 0 2 (DLeaf [[6;0;5;8];[8;0;5;1];[8;5;2;1];[3;6;2;8];[8;6;5;2]] [3;2;1;0] 7) (DLeaf [[6;0;5;8];[8;0;5;1];[8;5;2;1];[3;6;5;8];[3;5;2;8]] [1;2;3;0] 9)));
  (DCmp 0 3 1 3 (DCmp 1 3 2 3 (DLeaf [[0;1;5;6];[6;8;9;3];[6;1;5;8];[6;8;5;9];[1;2;5;8];[5;8;2;9]] [0;1;2;3] 10) (DLeaf [[0;1;5;6];[6;8;9;3];[6;1;9;8];[6;1;5;9];[1;2;5;9]] [0;1;2;3] 8)) (DCmp 1 3 2 3 (DLeaf [[0;1;5;8];[0;8;5;6];[6;8;9;3];[6;8;5;9];[1;2;5;8];[5;8;2;9]] [1;0;3;2] 14) (DLeaf [[0;1;5;8];[0;8;5;6];[6;8;9;3];[6;8;5;9];[8;1;5;9];[5;1;2;9]] [2;1;0;3] 10)));
  (DCmp 3 0 0 2 (DCmp 0 2 2 1 (DLeaf [[3;6;2;7];[3;6;7;1];[6;5;2;7];[6;0;5;1];[6;5;7;1]] [0;1;3;2] 7) (DLeaf [[3;6;2;7];[3;6;7;1];[6;5;2;7];[6;0;7;1];[6;0;5;7]] [1;3;2;0] 9)) (DCmp 0 2 2 1 (DLeaf [[3;6;5;1];[3;5;7;1];[3;5;2;7];[6;0;5;1]] [0;1;3;2] 4) (DLeaf [[3;6;5;7];[3;6;7;1];[3;5;2;7];[6;0;5;7];[6;0;7;1]] [2;3;1;0] 7)));
  (DCmp 3 2 1 2 (DCmp 1 2 0 2 (DLeaf [[3;1;6;9];[9;7;5;2];[9;1;6;7];[9;7;6;5];[1;0;6;7];[6;7;0;5]] [3;1;0;2] 10) (DLeaf [[3;1;6;9];[9;7;5;2];[9;1;5;7];[9;1;6;5];[1;0;6;5]] [0;1;3;2] 8)) (DCmp 1 2 0 2 (DLeaf [[3;1;6;7];[3;7;6;9];[9;7;5;2];[9;7;6;5];[1;0;6;7];[6;7;0;5]] [1;0;2;3] 14) (DLeaf [[3;1;6;7];[3;7;6;9];[9;7;5;2];[9;7;6;5];[7;1;6;5];[6;1;0;5]] [0;1;3;2] 10)));
  (DCmp 0 3 1 3 (DCmp 1 3 1 2 (DCmp 0 2 0 3 (DCmp 0 2 1 2 (DLeaf [[0;1;5;6];[6;1;5;8];[1;7;5;8];[7;2;5;8];[6;8;5;3];[8;2;5;3]] [0;1;3;2] 12) (DFail)) (DCmp 0 2 1 2 (DLeaf [[0;1;5;6];[1;7;5;6];[1;7;6;8];[8;7;6;2];[7;2;5;6];[6;8;2;3]] [0;1;2;3] 13) (DLeaf [[0;1;7;6];[0;7;5;6];[6;1;7;8];[6;8;7;2];[6;7;5;2];[6;8;2;3]] [3;2;1;0] 12))) (DCmp 0 2 0 3 (DCmp 0 2 1 2 (DLeaf [[0;1;5;6];[6;1;5;8];[1;7;5;8];[5;7;2;3];[5;8;7;3];[6;8;5;3]] [0;1;3;2] 13) (DLeaf [[0;1;7;6];[6;1;7;8];[6;8;7;3];[6;7;5;3];[0;7;5;6];[5;7;2;3]] [2;3;0;1] 12)) (DCmp 0 2 1 2 (DLeaf [[0;1;5;6];[1;7;5;6];[1;7;6;8];[8;7;6;3];[7;2;5;6];[6;7;2;3]] [0;1;2;3] 12) (DLeaf [[0;1;7;6];[6;1;7;8];[6;8;7;3];[0;7;5;6];[5;7;2;6];[6;7;2;3]] [0;1;3;2] 15)))) (DCmp 1 3 1 2 (DCmp 0 2 0 3 (DCmp 0 2 1 2 (DLeaf [[0;1;5;8];[0;8;5;6];[1;7;5;8];[5;7;2;8];[5;8;2;3];[6;8;5;3]] [0;1;2;3] 15) (DLeaf [[0;1;7;8];[0;7;5;8];[0;8;5;6];[6;8;5;3];[5;7;2;8];[5;8;2;3]] [1;0;2;3] 12)) (DCmp 0 2 1 2 (DLeaf [[0;1;5;8];[1;7;5;8];[0;8;5;6];[7;2;5;8];[8;2;5;6];[8;2;6;3]] [3;2;0;1] 12) (DLeaf [[0;1;7;8];[0;8;7;6];[0;7;5;6];[6;8;7;2];[6;7;5;2];[6;8;2;3]] [1;0;3;2] 11))) (DCmp 0 2 0 3 (DCmp 0 2 1 2 (DLeaf [[0;1;5;8];[0;8;5;6];[6;8;5;3];[1;7;5;8];[8;7;5;3];[7;2;5;3]] [2;3;1;0] 12) (DLeaf [[0;1;7;8];[0;7;5;8];[0;8;5;6];[6;8;5;3];[8;7;5;3];[7;2;5;3]] [1;0;2;3] 11)) (DCmp 0 2 1 2 (DFail) (DLeaf [[0;1;7;8];[0;8;7;6];[0;7;5;6];[6;8;7;3];[6;7;2;3];[5;7;2;6]] [1;0;3;2] 12)))));
  (DCmp 0 3 1 3 (DCmp 0 2 1 2 (DLeaf [[6;8;9;3];[5;7;2;9];[6;7;5;9];[6;8;7;9];[1;7;6;8];[0;1;5;6];[1;7;5;6]] [0;1;2;3] 16) (DLeaf [[6;8;9;3];[5;7;2;9];[6;7;5;9];[6;8;7;9];[1;7;6;8];[0;1;7;6];[0;7;5;6]] [0;1;3;2] 17)) (DCmp 0 2 1 2 (DLeaf [[6;8;9;3];[5;7;2;9];[0;1;5;8];[0;8;5;6];[1;7;5;8];[8;7;5;9];[6;8;5;9]] [0;1;2;3] 17) (DLeaf [[6;8;9;3];[5;7;2;9];[0;1;7;8];[0;8;7;6];[0;7;5;6];[6;7;5;9];[6;8;7;9]] [1;0;3;2] 16)));
  (DLeaf [[0;4;2;3];[4;1;2;3]] [0;2;3;1] 1);
  (DLeaf [[4;1;2;9];[4;1;9;3];[0;4;2;9];[0;4;9;3]] [0;2;1;3] 6);
  (DCmp 3 1 0 1 (DLeaf [[8;1;4;2];[3;8;0;2];[8;4;0;2]] [3;0;2;1] 2) (DLeaf [[8;1;4;2];[3;8;4;2];[3;4;0;2]] [0;3;2;1] 2));
  (DCmp 3 1 3 2 (DCmp 3 1 1 0 (DLeaf [[8;1;4;2];[3;8;0;9];[9;8;0;2];[8;4;0;2]] [1;2;0;3] 4) (DLeaf [[8;1;4;2];[3;8;4;9];[3;4;0;9];[9;8;4;2];[9;4;0;2]] [1;2;0;3] 7)) (DCmp 3 1 1 0 (DLeaf [[8;1;4;9];[9;1;4;2];[9;4;0;2];[3;8;0;9];[9;8;4;0]] [3;0;2;1] 7) (DLeaf [[8;1;4;9];[9;1;4;2];[9;4;0;2];[3;8;4;9];[3;4;0;9]] [0;2;1;3] 9)));
  (DCmp 0 1 2 1 (DLeaf [[4;1;7;3];[0;4;2;3];[4;7;2;3]] [0;2;3;1] 2) (DLeaf [[4;1;7;3];[0;4;7;3];[0;7;2;3]] [2;0;3;1] 2));
  (DCmp 0 1 1 2 (DCmp 1 2 2 3 (DLeaf [[0;4;2;9];[0;4;9;3];[4;7;2;9];[4;1;7;3];[4;7;9;3]] [1;3;0;2] 7) (DLeaf [[0;4;2;9];[0;4;9;3];[4;7;2;9];[4;1;9;3];[4;1;7;9]] [0;3;1;2] 9)) (DCmp 1 2 2 3 (DLeaf [[0;4;7;3];[0;7;9;3];[0;7;2;9];[4;1;7;3]] [1;3;0;2] 4) (DLeaf [[0;4;7;9];[0;4;9;3];[0;7;2;9];[4;1;7;9];[4;1;9;3]] [2;0;3;1] 7)));
  (DCmp 0 1 1 2 (DCmp 1 3 1 2 (DCmp 1 3 0 1 (DLeaf [[4;1;7;8];[0;8;2;3];[0;4;2;8];[4;7;2;8]] [3;0;2;1] 3) (DLeaf [[4;1;7;8];[0;4;2;3];[3;4;2;8];[4;7;2;8]] [0;3;2;1] 3)) (DCmp 1 3 0 1 (DFail) (DLeaf [[4;1;7;8];[0;4;2;3];[4;7;2;3];[4;8;7;3]] [0;2;3;1] 3))) (DCmp 1 3 1 2 (DCmp 1 3 0 1 (DLeaf [[4;1;7;8];[0;4;7;8];[0;8;7;2];[0;8;2;3]] [3;2;0;1] 3) (DFail)) (DCmp 1 3 0 1 (DLeaf [[4;1;7;8];[0;4;7;8];[0;8;7;3];[0;7;2;3]] [2;3;0;1] 3) (DLeaf [[4;1;7;8];[0;4;7;3];[4;7;3;8];[0;7;2;3]] [2;0;3;1] 3))));
  (DCmp 3 1 0 1 (DCmp 0 1 2 1 (DLeaf [[3;0;9;8];[8;4;7;1];[8;0;9;4];[8;4;9;7];[0;2;9;4];[9;4;2;7]] [3;0;2;1] 10) (DLeaf [[3;0;9;8];[8;4;7;1];[8;0;7;4];[8;0;9;7];[0;2;9;7]] [2;0;3;1] 8)) (DCmp 0 1 2 1 (DLeaf [[3;0;9;4];[3;4;9;8];[8;4;7;1];[8;4;9;7];[0;2;9;4];[9;4;2;7]] [0;2;1;3] 14) (DLeaf [[3;0;9;4];[3;4;9;8];[8;4;7;1];[8;4;9;7];[4;0;9;7];[9;0;2;7]] [2;0;3;1] 10)));
  (DCmp 1 0 3 0 (DLeaf [[4;0;6;2];[1;4;3;2];[4;6;3;2]] [1;3;2;0] 2) (DLeaf [[4;0;6;2];[1;4;6;2];[1;6;3;2]] [3;1;2;0] 2));
  (DCmp 1 0 0 3 (DCmp 0 3 3 2 (DLeaf [[1;4;3;9];[1;4;9;2];[4;6;3;9];[4;0;6;2];[4;6;9;2]] [0;2;1;3] 7) (DLeaf [[1;4;3;9];[1;4;9;2];[4;6;3;9];[4;0;9;2];[4;0;6;9]] [1;2;0;3] 9)) (DCmp 0 3 3 2 (DLeaf [[1;4;6;2];[1;6;9;2];[1;6;3;9];[4;0;6;2]] [0;2;1;3] 4) (DLeaf [[1;4;6;9];[1;4;9;2];[1;6;3;9];[4;0;6;9];[4;0;9;2]] [3;1;2;0] 7)));
  (DLeaf [[1;4;8;2];[4;6;8;2];[4;0;6;2];[8;6;3;2]] [0;2;1;3] 5);
  (DCmp 1 3 2 3 (DCmp 2 3 0 3 (DLeaf [[1;2;4;8];[8;9;6;3];[8;2;4;9];[8;9;4;6];[2;0;4;9];[4;9;0;6]] [1;2;0;3] 10) (DLeaf [[1;2;4;8];[8;9;6;3];[8;2;6;9];[8;2;4;6];[2;0;4;6]] [0;2;1;3] 8)) (DCmp 2 3 0 3 (DLeaf [[1;2;4;9];[1;9;4;8];[8;9;6;3];[8;9;4;6];[2;0;4;9];[4;9;0;6]] [2;0;3;1] 14) (DLeaf [[1;2;4;9];[1;9;4;8];[8;9;6;3];[8;9;4;6];[9;2;4;6];[4;2;0;6]] [0;2;1;3] 10)));
  (DCmp 1 0 1 2 (DCmp 1 0 0 3 (DLeaf [[4;0;6;2];[1;4;3;7];[7;4;3;2];[4;6;3;2]] [0;2;3;1] 4) (DLeaf [[4;0;6;2];[1;4;6;7];[1;6;3;7];[7;4;6;2];[7;6;3;2]] [0;2;3;1] 7)) (DCmp 1 0 0 3 (DLeaf [[4;0;6;7];[7;0;6;2];[7;6;3;2];[1;4;3;7];[7;4;6;3]] [1;3;2;0] 7) (DLeaf [[4;0;6;7];[7;0;6;2];[7;6;3;2];[1;4;6;7];[1;6;3;7]] [2;3;1;0] 9)));
  (DCmp 2 3 0 3 (DCmp 0 3 0 1 (DCmp 2 1 2 3 (DCmp 2 1 0 1 (DLeaf [[2;0;7;9];[9;0;7;6];[0;4;7;6];[4;1;7;6];[9;6;7;3];[6;1;7;3]] [2;0;3;1] 12) (DFail)) (DCmp 2 1 0 1 (DLeaf [[2;0;7;9];[0;4;7;9];[0;4;9;6];[6;4;9;1];[4;1;7;9];[9;6;1;3]] [2;0;1;3] 13) (DLeaf [[2;0;4;9];[2;4;7;9];[9;0;4;6];[9;6;4;1];[9;4;7;1];[9;6;1;3]] [3;1;0;2] 12))) (DCmp 2 1 2 3 (DCmp 2 1 0 1 (DLeaf [[2;0;7;9];[9;0;7;6];[0;4;7;6];[7;4;1;3];[7;6;4;3];[9;6;7;3]] [1;3;0;2] 13) (DLeaf [[2;0;4;9];[9;0;4;6];[9;6;4;3];[9;4;7;3];[2;4;7;9];[7;4;1;3]] [1;3;2;0] 12)) (DCmp 2 1 0 1 (DLeaf [[2;0;7;9];[0;4;7;9];[0;4;9;6];[6;4;9;3];[4;1;7;9];[9;4;1;3]] [2;0;1;3] 12) (DLeaf [[2;0;4;9];[9;0;4;6];[9;6;4;3];[2;4;7;9];[7;4;1;9];[9;4;1;3]] [0;2;1;3] 15)))) (DCmp 0 3 0 1 (DCmp 2 1 2 3 (DCmp 2 1 0 1 (DLeaf [[2;0;7;6];[2;6;7;9];[0;4;7;6];[7;4;1;6];[7;6;1;3];[9;6;7;3]] [0;2;3;1] 15) (DLeaf [[2;0;4;6];[2;4;7;6];[2;6;7;9];[9;6;7;3];[7;4;1;6];[7;6;1;3]] [0;2;1;3] 12)) (DCmp 2 1 0 1 (DLeaf [[2;0;7;6];[0;4;7;6];[2;6;7;9];[4;1;7;6];[6;1;7;9];[6;1;9;3]] [3;1;2;0] 12) (DLeaf [[2;0;4;6];[2;6;4;9];[2;4;7;9];[9;6;4;1];[9;4;7;1];[9;6;1;3]] [0;2;3;1] 11))) (DCmp 2 1 2 3 (DCmp 2 1 0 1 (DLeaf [[2;0;7;6];[2;6;7;9];[9;6;7;3];[0;4;7;6];[6;4;7;3];[4;1;7;3]] [1;3;0;2] 12) (DLeaf [[2;0;4;6];[2;4;7;6];[2;6;7;9];[9;6;7;3];[6;4;7;3];[4;1;7;3]] [0;2;1;3] 11)) (DCmp 2 1 0 1 (DFail) (DLeaf [[2;0;4;6];[2;6;4;9];[2;4;7;9];[9;6;4;3];[9;4;1;3];[7;4;1;9]] [0;2;3;1] 12)))));
  (DCmp 0 1 2 1 (DCmp 2 1 3 1 (DLeaf [[0;2;6;4];[4;7;8;1];[4;2;6;7];[4;7;6;8];[2;3;6;7];[6;7;3;8]] [0;2;3;1] 10) (DLeaf [[0;2;6;4];[4;7;8;1];[4;2;8;7];[4;2;6;8];[2;3;6;8]] [0;2;3;1] 8)) (DCmp 2 1 3 1 (DLeaf [[0;2;6;7];[0;7;6;4];[4;7;8;1];[4;7;6;8];[2;3;6;7];[6;7;3;8]] [2;0;1;3] 14) (DLeaf [[0;2;6;7];[0;7;6;4];[4;7;8;1];[4;7;6;8];[7;2;6;8];[6;2;3;8]] [3;2;0;1] 10)));
  (DCmp 2 3 0 3 (DCmp 2 1 0 1 (DLeaf [[9;6;8;3];[7;4;1;8];[9;4;7;8];[9;6;4;8];[0;4;9;6];[2;0;7;9];[0;4;7;9]] [2;0;1;3] 16) (DLeaf [[9;6;8;3];[7;4;1;8];[9;4;7;8];[9;6;4;8];[0;4;9;6];[2;0;4;9];[2;4;7;9]] [0;2;1;3] 17)) (DCmp 2 1 0 1 (DLeaf [[9;6;8;3];[7;4;1;8];[2;0;7;6];[2;6;7;9];[0;4;7;6];[6;4;7;8];[9;6;7;8]] [0;2;3;1] 17) (DLeaf [[9;6;8;3];[7;4;1;8];[2;0;4;6];[2;6;4;9];[2;4;7;9];[9;4;7;8];[9;6;4;8]] [0;2;3;1] 16)));
  (DCmp 2 0 1 0 (DLeaf [[5;0;4;3];[2;5;1;3];[5;4;1;3]] [2;1;3;0] 2) (DLeaf [[5;0;4;3];[2;5;4;3];[2;4;1;3]] [1;2;3;0] 2));
  (DCmp 2 0 2 3 (DCmp 2 0 0 1 (DLeaf [[5;0;4;3];[2;5;1;9];[9;5;1;3];[5;4;1;3]] [0;3;1;2] 4) (DLeaf [[5;0;4;3];[2;5;4;9];[2;4;1;9];[9;5;4;3];[9;4;1;3]] [0;3;1;2] 7)) (DCmp 2 0 0 1 (DLeaf [[5;0;4;9];[9;0;4;3];[9;4;1;3];[2;5;1;9];[9;5;4;1]] [2;1;3;0] 7) (DLeaf [[5;0;4;9];[9;0;4;3];[9;4;1;3];[2;5;4;9];[2;4;1;9]] [1;3;0;2] 9)));
  (DCmp 2 0 0 1 (DCmp 0 1 1 3 (DLeaf [[2;5;1;8];[2;5;8;3];[5;4;1;8];[5;0;4;3];[5;4;8;3]] [0;3;2;1] 7) (DLeaf [[2;5;1;8];[2;5;8;3];[5;4;1;8];[5;0;8;3];[5;0;4;8]] [2;3;0;1] 9)) (DCmp 0 1 1 3 (DLeaf [[2;5;4;3];[2;4;8;3];[2;4;1;8];[5;0;4;3]] [0;3;2;1] 4) (DLeaf [[2;5;4;8];[2;5;8;3];[2;4;1;8];[5;0;4;8];[5;0;8;3]] [1;2;3;0] 7)));
  (DCmp 3 1 0 1 (DCmp 0 1 0 2 (DCmp 3 2 3 1 (DCmp 3 2 0 2 (DLeaf [[3;0;9;8];[8;0;9;4];[0;5;9;4];[5;2;9;4];[8;4;9;1];[4;2;9;1]] [3;0;1;2] 12) (DFail)) (DCmp 3 2 0 2 (DLeaf [[3;0;9;8];[0;5;9;8];[0;5;8;4];[4;5;8;2];[5;2;9;8];[8;4;2;1]] [1;2;0;3] 13) (DLeaf [[3;0;5;8];[3;5;9;8];[8;0;5;4];[8;4;5;2];[8;5;9;2];[8;4;2;1]] [1;2;0;3] 12))) (DCmp 3 2 3 1 (DCmp 3 2 0 2 (DLeaf [[3;0;9;8];[8;0;9;4];[0;5;9;4];[9;5;2;1];[9;4;5;1];[8;4;9;1]] [2;1;0;3] 13) (DLeaf [[3;0;5;8];[8;0;5;4];[8;4;5;1];[8;5;9;1];[3;5;9;8];[9;5;2;1]] [2;1;3;0] 12)) (DCmp 3 2 0 2 (DLeaf [[3;0;9;8];[0;5;9;8];[0;5;8;4];[4;5;8;1];[5;2;9;8];[8;5;2;1]] [3;0;2;1] 12) (DLeaf [[3;0;5;8];[8;0;5;4];[8;4;5;1];[3;5;9;8];[9;5;2;8];[8;5;2;1]] [0;3;2;1] 15)))) (DCmp 0 1 0 2 (DCmp 3 2 3 1 (DCmp 3 2 0 2 (DLeaf [[3;0;9;4];[3;4;9;8];[0;5;9;4];[9;5;2;4];[9;4;2;1];[8;4;9;1]] [0;3;1;2] 15) (DLeaf [[3;0;5;4];[3;5;9;4];[3;4;9;8];[8;4;9;1];[9;5;2;4];[9;4;2;1]] [0;3;2;1] 12)) (DCmp 3 2 0 2 (DLeaf [[3;0;9;4];[0;5;9;4];[3;4;9;8];[5;2;9;4];[4;2;9;8];[4;2;8;1]] [1;2;3;0] 12) (DLeaf [[3;0;5;4];[3;4;5;8];[3;5;9;8];[8;4;5;2];[8;5;9;2];[8;4;2;1]] [0;3;1;2] 11))) (DCmp 3 2 3 1 (DCmp 3 2 0 2 (DLeaf [[3;0;9;4];[3;4;9;8];[8;4;9;1];[0;5;9;4];[4;5;9;1];[5;2;9;1]] [2;1;0;3] 12) (DLeaf [[3;0;5;4];[3;5;9;4];[3;4;9;8];[8;4;9;1];[4;5;9;1];[5;2;9;1]] [0;3;2;1] 11)) (DCmp 3 2 0 2 (DFail) (DLeaf [[3;0;5;4];[3;4;5;8];[3;5;9;8];[8;4;5;1];[8;5;2;1];[9;5;2;8]] [0;3;1;2] 12)))));
  (DLeaf [[2;5;7;3];[5;4;7;3];[5;0;4;3];[7;4;1;3]] [0;3;1;2] 5);
  (DCmp 0 2 3 2 (DCmp 3 2 1 2 (DLeaf [[0;3;4;5];[5;9;7;2];[5;3;4;9];[5;9;4;7];[3;1;4;9];[4;9;1;7]] [0;3;1;2] 10) (DLeaf [[0;3;4;5];[5;9;7;2];[5;3;7;9];[5;3;4;7];[3;1;4;7]] [0;3;1;2] 8)) (DCmp 3 2 1 2 (DLeaf [[0;3;4;9];[0;9;4;5];[5;9;7;2];[5;9;4;7];[3;1;4;9];[4;9;1;7]] [3;0;2;1] 14) (DLeaf [[0;3;4;9];[0;9;4;5];[5;9;7;2];[5;9;4;7];[9;3;4;7];[4;3;1;7]] [1;3;0;2] 10)));
  (DCmp 2 1 3 1 (DCmp 3 1 0 1 (DLeaf [[2;3;5;7];[7;8;4;1];[7;3;5;8];[7;8;5;4];[3;0;5;8];[5;8;0;4]] [2;3;0;1] 10) (DLeaf [[2;3;5;7];[7;8;4;1];[7;3;4;8];[7;3;5;4];[3;0;5;4]] [0;3;2;1] 8)) (DCmp 3 1 0 1 (DLeaf [[2;3;5;8];[2;8;5;7];[7;8;4;1];[7;8;5;4];[3;0;5;8];[5;8;0;4]] [3;0;1;2] 14) (DLeaf [[2;3;5;8];[2;8;5;7];[7;8;4;1];[7;8;5;4];[8;3;5;4];[5;3;0;4]] [0;3;2;1] 10)));
  (DCmp 0 2 3 2 (DCmp 0 1 3 1 (DLeaf [[5;9;7;2];[4;8;1;7];[5;8;4;7];[5;9;8;7];[3;8;5;9];[0;3;4;5];[3;8;4;5]] [0;3;1;2] 16) (DLeaf [[5;9;7;2];[4;8;1;7];[5;8;4;7];[5;9;8;7];[3;8;5;9];[0;3;8;5];[0;8;4;5]] [0;3;2;1] 17)) (DCmp 0 1 3 1 (DLeaf [[5;9;7;2];[4;8;1;7];[0;3;4;9];[0;9;4;5];[3;8;4;9];[9;8;4;7];[5;9;4;7]] [0;3;1;2] 17) (DLeaf [[5;9;7;2];[4;8;1;7];[0;3;8;9];[0;9;8;5];[0;8;4;5];[5;8;4;7];[5;9;8;7]] [3;0;2;1] 16)));
  (DCmp 2 0 0 1 (DCmp 0 3 0 1 (DCmp 0 3 2 0 (DLeaf [[5;0;4;6];[2;6;1;3];[2;5;1;6];[5;4;1;6]] [3;2;1;0] 3) (DLeaf [[5;0;4;6];[2;5;1;3];[3;5;1;6];[5;4;1;6]] [2;3;1;0] 3)) (DCmp 0 3 2 0 (DFail) (DLeaf [[5;0;4;6];[2;5;1;3];[5;4;1;3];[5;6;4;3]] [2;1;3;0] 3))) (DCmp 0 3 0 1 (DCmp 0 3 2 0 (DLeaf [[5;0;4;6];[2;5;4;6];[2;6;4;1];[2;6;1;3]] [3;1;2;0] 3) (DFail)) (DCmp 0 3 2 0 (DLeaf [[5;0;4;6];[2;5;4;6];[2;6;4;3];[2;4;1;3]] [1;3;2;0] 3) (DLeaf [[5;0;4;6];[2;5;4;3];[5;4;3;6];[2;4;1;3]] [1;2;3;0] 3))));
  (DCmp 2 0 1 0 (DCmp 1 0 3 0 (DLeaf [[2;1;9;5];[5;4;6;0];[5;1;9;4];[5;4;9;6];[1;3;9;4];[9;4;3;6]] [2;1;3;0] 10) (DLeaf [[2;1;9;5];[5;4;6;0];[5;1;6;4];[5;1;9;6];[1;3;9;6]] [2;1;3;0] 8)) (DCmp 1 0 3 0 (DLeaf [[2;1;9;4];[2;4;9;5];[5;4;6;0];[5;4;9;6];[1;3;9;4];[9;4;3;6]] [1;2;0;3] 14) (DLeaf [[2;1;9;4];[2;4;9;5];[5;4;6;0];[5;4;9;6];[4;1;9;6];[9;1;3;6]] [3;1;2;0] 10)));
  (DCmp 3 0 2 0 (DCmp 2 0 1 0 (DLeaf [[3;2;8;6];[6;5;4;0];[6;2;8;5];[6;5;8;4];[2;1;8;5];[8;5;1;4]] [3;2;1;0] 10) (DLeaf [[3;2;8;6];[6;5;4;0];[6;2;4;5];[6;2;8;4];[2;1;8;4]] [1;2;3;0] 8)) (DCmp 2 0 1 0 (DLeaf [[3;2;8;5];[3;5;8;6];[6;5;4;0];[6;5;8;4];[2;1;8;5];[8;5;1;4]] [2;1;0;3] 14) (DLeaf [[3;2;8;5];[3;5;8;6];[6;5;4;0];[6;5;8;4];[5;2;8;4];[8;2;1;4]] [1;2;3;0] 10)));
  (DCmp 1 3 2 3 (DCmp 1 0 2 0 (DLeaf [[8;9;6;3];[4;5;0;6];[8;5;4;6];[8;9;5;6];[2;5;8;9];[1;2;4;8];[2;5;4;8]] [1;2;0;3] 16) (DLeaf [[8;9;6;3];[4;5;0;6];[8;5;4;6];[8;9;5;6];[2;5;8;9];[1;2;5;8];[1;5;4;8]] [1;2;3;0] 17)) (DCmp 1 0 2 0 (DLeaf [[8;9;6;3];[4;5;0;6];[1;2;4;9];[1;9;4;8];[2;5;4;9];[9;5;4;6];[8;9;4;6]] [1;2;0;3] 17) (DLeaf [[8;9;6;3];[4;5;0;6];[1;2;5;9];[1;9;5;8];[1;5;4;8];[8;5;4;6];[8;9;5;6]] [2;1;3;0] 16)));
  (DCmp 1 0 3 0 (DCmp 3 0 2 0 (DLeaf [[1;3;7;4];[4;6;5;0];[4;3;7;6];[4;6;7;5];[3;2;7;6];[7;6;2;5]] [1;3;2;0] 10) (DLeaf [[1;3;7;4];[4;6;5;0];[4;3;5;6];[4;3;7;5];[3;2;7;5]] [1;3;2;0] 8)) (DCmp 3 0 2 0 (DLeaf [[1;3;7;6];[1;6;7;4];[4;6;5;0];[4;6;7;5];[3;2;7;6];[7;6;2;5]] [3;1;0;2] 14) (DLeaf [[1;3;7;6];[1;6;7;4];[4;6;5;0];[4;6;7;5];[6;3;7;5];[7;3;2;5]] [2;3;1;0] 10)));
  (DCmp 1 0 3 0 (DCmp 1 2 3 2 (DLeaf [[4;6;5;0];[7;9;2;5];[4;9;7;5];[4;6;9;5];[3;9;4;6];[1;3;7;4];[3;9;7;4]] [1;3;2;0] 16) (DLeaf [[4;6;5;0];[7;9;2;5];[4;9;7;5];[4;6;9;5];[3;9;4;6];[1;3;9;4];[1;9;7;4]] [1;3;0;2] 17)) (DCmp 1 2 3 2 (DLeaf [[4;6;5;0];[7;9;2;5];[1;3;7;6];[1;6;7;4];[3;9;7;6];[6;9;7;5];[4;6;7;5]] [1;3;2;0] 17) (DLeaf [[4;6;5;0];[7;9;2;5];[1;3;9;6];[1;6;9;4];[1;9;7;4];[4;9;7;5];[4;6;9;5]] [3;1;0;2] 16)));
  (DCmp 3 0 2 0 (DCmp 3 1 2 1 (DLeaf [[6;5;4;0];[8;7;1;4];[6;7;8;4];[6;5;7;4];[2;7;6;5];[3;2;8;6];[2;7;8;6]] [3;2;1;0] 16) (DLeaf [[6;5;4;0];[8;7;1;4];[6;7;8;4];[6;5;7;4];[2;7;6;5];[3;2;7;6];[3;7;8;6]] [2;3;1;0] 17)) (DCmp 3 1 2 1 (DLeaf [[6;5;4;0];[8;7;1;4];[3;2;8;5];[3;5;8;6];[2;7;8;5];[5;7;8;4];[6;5;8;4]] [2;3;0;1] 17) (DLeaf [[6;5;4;0];[8;7;1;4];[3;2;7;5];[3;5;7;6];[3;7;8;6];[6;7;8;4];[6;5;7;4]] [2;3;0;1] 16)));
  (DDle 5 8 6 7 (DDle 5 8 4 9 (DLeaf [[0;4;5;6];[1;7;4;8];[2;5;7;9];[3;8;6;9];[4;8;5;6];[4;8;7;5];[7;8;9;5];[8;6;9;5]] [0;1;3;2] 18) (DDle 6 7 5 8 (DDle 6 7 4 9 (DLeaf [[0;4;5;6];[1;7;4;8];[2;5;7;9];[3;8;6;9];[4;7;6;8];[4;7;5;6];[7;9;6;8];[7;9;5;6]] [0;1;2;3] 18) (DLeaf [[0;4;5;6];[1;7;4;8];[2;5;7;9];[3;8;6;9];[4;9;6;8];[4;9;5;6];[4;7;9;8];[4;7;5;9]] [0;2;3;1] 18)) (DLeaf [[0;4;5;6];[1;7;4;8];[2;5;7;9];[3;8;6;9];[4;9;6;8];[4;9;5;6];[4;7;9;8];[4;7;5;9]] [0;2;3;1] 18))) (DDle 6 7 5 8 (DDle 6 7 4 9 (DLeaf [[0;4;5;6];[1;7;4;8];[2;5;7;9];[3;8;6;9];[4;7;6;8];[4;7;5;6];[7;9;6;8];[7;9;5;6]] [0;1;2;3] 18) (DLeaf [[0;4;5;6];[1;7;4;8];[2;5;7;9];[3;8;6;9];[4;9;6;8];[4;9;5;6];[4;7;9;8];[4;7;5;9]] [0;2;3;1] 18)) (DLeaf [[0;4;5;6];[1;7;4;8];[2;5;7;9];[3;8;6;9];[4;9;6;8];[4;9;5;6];[4;7;9;8];[4;7;5;9]] [0;2;3;1] 18)))].
