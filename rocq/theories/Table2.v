(** * Table2: more certified values of MAXSZ(m,i) (generated by tools/gen_table2.py; as Table, the kernel checks every entry). *)
From Verif Require Import Base Thresholds.
Local Notation M a b c d e f := (Build_mentry a b c d e f).
Open Scope N_scope.
Definition mtable2 : list mentry := [
  M 20 0 2 12 13 3; M 20 1 3 12 13 3; M 20 2 4 17 18 4; M 20 3 6 17 18 4; M 20 4 9 21 22 5; M 20 5 13 21 22 5;
  M 21 0 2 8 9 2; M 22 0 2 8 9 2; M 23 0 2 13 14 3; M 23 1 3 13 14 3; M 23 2 4 9 10 2; M 23 3 6 104 105 23;
  M 23 4 10 22 23 5; M 23 5 14 18 19 4; M 23 6 21 18 19 4; M 23 7 31 13 14 3; M 24 0 2 13 14 3; M 25 0 2 9 10 2;
  M 26 0 2 9 10 2; M 26 1 3 9 10 2; M 26 2 5 18 19 4; M 27 0 2 9 10 2; M 28 0 2 9 10 2; M 29 0 2 9 10 2;
  M 29 1 3 14 15 3; M 29 2 5 14 15 3; M 29 3 8 38 39 8; M 30 0 2 9 10 2; M 31 0 2 14 15 3; M 32 0 2 5 5 1;
  M 32 1 3 5 5 1; M 32 2 5 5 5 1; M 33 0 2 10 11 2; M 34 0 2 10 11 2; M 35 0 2 10 11 2; M 35 1 4 117 118 23;
  M 36 0 2 5 6 1; M 37 0 2 5 6 1; M 38 0 2 26 27 5; M 38 1 4 15 16 3; M 38 2 6 15 16 3; M 38 3 9 26 27 5;
  M 38 4 14 26 27 5; M 38 5 21 47 48 9; M 39 0 2 21 22 4; M 40 0 2 21 22 4; M 41 0 2 16 17 3; M 41 1 4 10 11 2;
  M 42 0 2 16 17 3; M 43 0 2 27 28 5; M 44 0 2 38 39 7; M 44 1 4 16 17 3; M 44 2 6 38 39 7; M 44 3 10 16 17 3;
  M 45 0 2 126 127 23; M 46 0 3 82 83 15; M 47 0 3 38 39 7; M 48 0 3 27 28 5; M 48 1 4 11 12 2; M 48 2 7 16 17 3;
  M 49 0 3 16 17 3; M 50 0 3 16 17 3; M 51 0 3 22 23 4; M 52 0 3 22 23 4; M 52 1 4 17 18 3; M 52 2 7 17 18 3;
  M 52 3 11 17 18 3; M 52 4 18 22 23 4; M 53 0 3 22 23 4; M 54 0 3 11 12 2; M 55 0 3 11 12 2; M 56 0 3 11 12 2;
  M 56 1 5 34 35 6; M 57 0 3 11 12 2; M 58 0 3 11 12 2; M 59 0 3 11 12 2; M 60 0 3 11 12 2; M 60 1 5 17 18 3;
  M 60 2 8 17 18 3; M 60 3 13 64 65 11; M 61 0 3 17 18 3; M 62 0 3 17 18 3; M 63 0 3 17 18 3; M 64 0 3 6 6 1;
  M 64 1 5 6 6 1; M 65 0 3 12 13 2; M 66 0 3 12 13 2; M 67 0 3 12 13 2; M 68 0 3 12 13 2; M 68 1 5 12 13 2;
  M 68 2 9 54 55 9; M 69 0 3 12 13 2; M 70 0 3 12 13 2; M 71 0 3 12 13 2; M 72 0 3 37 38 6; M 72 1 5 37 38 6;
  M 73 0 3 37 38 6; M 74 0 3 31 32 5; M 75 0 3 31 32 5; M 76 0 3 31 32 5; M 76 1 6 18 19 3; M 76 2 9 31 32 5;
  M 76 3 15 37 38 6; M 76 4 24 37 38 6; M 76 5 38 37 38 6; M 76 6 60 56 57 9; M 77 0 3 25 26 4; M 78 0 3 25 26 4;
  M 79 0 3 44 45 7; M 80 0 4 195 196 31].
Close Scope N_scope.
Lemma mtable2_ok : forallb mcheck mtable2 = true. Proof. vm_compute. reflexivity. Qed.
Definition tabled2 (T : thresholds) : thresholds := with_table mtable2 [] T.
Lemma tabled2_eq T : th_real T -> tabled2 T = T.
Proof. intros H. apply with_table_eq; auto using mtable2_ok. Qed.
