(** * Table: certified values of MAXSZ(m,i) for 2 <= m <= 48 and of the rebuild test for small
    arguments (generated by tools/gen_table.py; every entry carries integers that the kernel checks, so
    the generator is not trusted). *)
From Verif Require Import Base Thresholds.
Local Notation M a b c d e f := (Build_mentry a b c d e f).
Local Notation W a b c d e f := (Build_tentry a b c d e f).
Open Scope N_scope.
Definition mtable : list mentry := [
  M 2 0 4 1 1 1; M 2 1 4 1 1 1; M 2 2 4 1 1 1; M 2 3 4 1 1 1; M 2 4 4 1 1 1; M 2 5 4 1 1 1;
  M 2 6 4 1 1 1; M 2 7 4 1 1 1; M 2 8 4 1 1 1; M 3 0 2 9 10 6; M 3 1 2 6 7 4; M 3 2 3 45 46 29;
  M 3 3 3 7 8 5; M 3 4 3 11 12 7; M 3 5 4 4 5 3; M 3 6 4 3 4 2; M 3 7 5 3 4 2; M 3 8 6 1 2 1;
  M 4 0 2 2 2 1; M 4 1 2 2 2 1; M 4 2 2 2 2 1; M 4 3 3 2 2 1; M 4 4 4 2 2 1; M 4 5 4 2 2 1;
  M 4 6 5 2 2 1; M 4 7 6 2 2 1; M 4 8 8 2 2 1; M 5 0 1 9 10 4; M 5 1 2 4 5 2; M 5 2 2 9 10 4;
  M 5 3 3 9 10 4; M 5 4 4 9 10 4; M 5 5 5 4 5 2; M 5 6 6 9 10 4; M 5 7 8 6 7 3; M 5 8 10 2 3 1;
  M 6 0 1 5 6 2; M 6 1 2 7 8 3; M 6 2 2 18 19 7; M 6 3 3 5 6 2; M 6 4 4 5 6 2; M 6 5 5 18 19 7;
  M 6 6 7 7 8 3; M 6 7 9 5 6 2; M 6 8 12 2 3 1; M 7 0 1 8 9 3; M 7 1 2 5 6 2; M 7 2 2 14 15 5;
  M 7 3 3 11 12 4; M 7 4 4 87 88 31; M 7 5 6 8 9 3; M 7 6 8 5 6 2; M 7 7 10 8 9 3; M 7 8 14 2 3 1;
  M 8 0 1 3 3 1; M 8 1 2 3 3 1; M 8 2 3 3 3 1; M 8 3 4 3 3 1; M 8 4 5 3 3 1; M 8 5 7 3 3 1;
  M 8 6 9 3 3 1; M 8 7 12 3 3 1; M 8 8 16 3 3 1; M 9 0 1 19 20 6; M 9 1 2 6 7 2; M 9 2 3 12 13 4;
  M 9 3 4 12 13 4; M 9 4 5 19 20 6; M 9 5 7 6 7 2; M 9 6 10 15 16 5; M 9 7 13 6 7 2; M 9 8 18 3 4 1;
  M 10 0 1 13 14 4; M 10 1 2 6 7 2; M 10 2 3 6 7 2; M 10 3 4 13 14 4; M 10 4 6 9 10 3; M 10 5 8 9 10 3;
  M 10 6 10 43 44 13; M 10 7 14 13 14 4; M 10 8 20 3 4 1; M 11 0 1 10 11 3; M 11 1 2 10 11 3; M 11 2 3 10 11 3;
  M 11 3 4 10 11 3; M 11 4 6 10 11 3; M 11 5 8 10 11 3; M 11 6 11 17 18 5; M 11 7 16 6 7 2; M 11 8 22 3 4 1;
  M 12 0 1 7 8 2; M 12 1 2 7 8 2; M 12 2 3 7 8 2; M 12 3 4 25 26 7; M 12 4 6 7 8 2; M 12 5 9 10 11 3;
  M 12 6 12 7 8 2; M 12 7 17 10 11 3; M 12 8 24 3 4 1; M 13 0 1 11 12 3; M 13 1 2 7 8 2; M 13 2 3 7 8 2;
  M 13 3 5 25 26 7; M 13 4 7 25 26 7; M 13 5 9 11 12 3; M 13 6 13 7 8 2; M 13 7 18 11 12 3; M 13 8 26 3 4 1;
  M 14 0 1 15 16 4; M 14 1 2 11 12 3; M 14 2 3 11 12 3; M 14 3 5 22 23 6; M 14 4 7 11 12 3; M 14 5 10 22 23 6;
  M 14 6 14 7 8 2; M 14 7 20 22 23 6; M 14 8 28 3 4 1; M 15 0 1 31 32 8; M 15 1 2 15 16 4; M 15 2 3 23 24 6;
  M 15 3 5 11 12 3; M 15 4 7 19 20 5; M 15 5 10 23 24 6; M 15 6 15 11 12 3; M 15 7 21 7 8 2; M 15 8 30 3 4 1;
  M 16 0 2 4 4 1; M 16 1 2 4 4 1; M 16 2 4 4 4 1; M 16 3 5 4 4 1; M 16 4 8 4 4 1; M 16 5 11 4 4 1;
  M 16 6 16 4 4 1; M 16 7 22 4 4 1; M 16 8 32 4 4 1; M 17 0 2 36 37 9; M 17 1 2 49 50 12; M 17 2 4 28 29 7;
  M 17 3 5 49 50 12; M 17 4 8 16 17 4; M 17 5 11 49 50 12; M 17 6 16 49 50 12; M 17 7 23 49 50 12; M 17 8 34 4 5 1;
  M 18 0 2 20 21 5; M 18 1 2 25 26 6; M 18 2 4 16 17 4; M 18 3 6 45 46 11; M 18 4 8 25 26 6; M 18 5 12 16 17 4;
  M 18 6 17 25 26 6; M 18 7 25 16 17 4; M 18 8 36 4 5 1; M 19 0 2 12 13 3; M 19 1 3 16 17 4; M 19 2 4 12 13 3;
  M 19 3 6 12 13 3; M 19 4 8 55 56 13; M 19 5 12 21 22 5; M 19 6 18 21 22 5; M 19 7 26 8 9 2; M 19 8 38 4 5 1;
  M 20 0 2 12 13 3; M 20 1 3 12 13 3; M 20 2 4 17 18 4; M 20 3 6 17 18 4; M 20 4 9 21 22 5; M 20 5 13 21 22 5;
  M 20 6 19 21 22 5; M 20 7 27 17 18 4; M 20 8 40 4 5 1; M 21 0 2 8 9 2; M 21 1 3 8 9 2; M 21 2 4 13 14 3;
  M 21 3 6 13 14 3; M 21 4 9 13 14 3; M 21 5 13 13 14 3; M 21 6 20 21 22 5; M 21 7 29 122 123 28; M 21 8 42 4 5 1;
  M 22 0 2 8 9 2; M 22 1 3 8 9 2; M 22 2 4 13 14 3; M 22 3 6 22 23 5; M 22 4 9 31 32 7; M 22 5 14 17 18 4;
  M 22 6 20 22 23 5; M 22 7 30 17 18 4; M 22 8 44 4 5 1; M 23 0 2 13 14 3; M 23 1 3 13 14 3; M 23 2 4 9 10 2;
  M 23 3 6 104 105 23; M 23 4 10 22 23 5; M 23 5 14 18 19 4; M 23 6 21 18 19 4; M 23 7 31 13 14 3; M 23 8 46 4 5 1;
  M 24 0 2 13 14 3; M 24 1 3 13 14 3; M 24 2 4 32 33 7; M 24 3 7 22 23 5; M 24 4 10 18 19 4; M 24 5 15 13 14 3;
  M 24 6 22 18 19 4; M 24 7 32 9 10 2; M 24 8 48 4 5 1; M 25 0 2 9 10 2; M 25 1 3 13 14 3; M 25 2 4 65 66 14;
  M 25 3 7 13 14 3; M 25 4 10 23 24 5; M 25 5 15 23 24 5; M 25 6 23 27 28 6; M 25 7 34 13 14 3; M 25 8 50 4 5 1;
  M 26 0 2 9 10 2; M 26 1 3 9 10 2; M 26 2 5 18 19 4; M 26 3 7 18 19 4; M 26 4 11 32 33 7; M 26 5 16 18 19 4;
  M 26 6 23 47 48 10; M 26 7 35 18 19 4; M 26 8 52 4 5 1; M 27 0 2 9 10 2; M 27 1 3 9 10 2; M 27 2 5 23 24 5;
  M 27 3 7 14 15 3; M 27 4 11 23 24 5; M 27 5 16 19 20 4; M 27 6 24 14 15 3; M 27 7 36 14 15 3; M 27 8 54 4 5 1;
  M 28 0 2 9 10 2; M 28 1 3 14 15 3; M 28 2 5 9 10 2; M 28 3 7 19 20 4; M 28 4 11 19 20 4; M 28 5 17 28 29 6;
  M 28 6 25 14 15 3; M 28 7 37 19 20 4; M 28 8 56 4 5 1; M 29 0 2 9 10 2; M 29 1 3 14 15 3; M 29 2 5 14 15 3;
  M 29 3 8 38 39 8; M 29 4 11 34 35 7; M 29 5 17 24 25 5; M 29 6 26 38 39 8; M 29 7 39 38 39 8; M 29 8 58 4 5 1;
  M 30 0 2 9 10 2; M 30 1 3 19 20 4; M 30 2 5 14 15 3; M 30 3 8 14 15 3; M 30 4 12 14 15 3; M 30 5 18 53 54 11;
  M 30 6 27 53 54 11; M 30 7 40 14 15 3; M 30 8 60 4 5 1; M 31 0 2 14 15 3; M 31 1 3 24 25 5; M 31 2 5 19 20 4;
  M 31 3 8 19 20 4; M 31 4 12 24 25 5; M 31 5 18 34 35 7; M 31 6 27 54 55 11; M 31 7 41 19 20 4; M 31 8 62 4 5 1;
  M 32 0 2 5 5 1; M 32 1 3 5 5 1; M 32 2 5 5 5 1; M 32 3 8 5 5 1; M 32 4 12 5 5 1; M 32 5 19 5 5 1;
  M 32 6 28 5 5 1; M 32 7 42 5 5 1; M 32 8 64 5 5 1; M 33 0 2 10 11 2; M 33 1 3 10 11 2; M 33 2 5 10 11 2;
  M 33 3 8 15 16 3; M 33 4 13 65 66 13; M 33 5 19 20 21 4; M 33 6 29 30 31 6; M 33 7 44 80 81 16; M 33 8 66 5 6 1;
  M 34 0 2 10 11 2; M 34 1 3 61 62 12; M 34 2 5 61 62 12; M 34 3 8 61 62 12; M 34 4 13 25 26 5; M 34 5 20 45 46 9;
  M 34 6 30 40 41 8; M 34 7 45 25 26 5; M 34 8 68 5 6 1; M 35 0 2 10 11 2; M 35 1 4 117 118 23; M 35 2 6 35 36 7;
  M 35 3 9 35 36 7; M 35 4 13 41 42 8; M 35 5 20 20 21 4; M 35 6 30 41 42 8; M 35 7 46 15 16 3; M 35 8 70 5 6 1;
  M 36 0 2 5 6 1; M 36 1 4 25 26 5; M 36 2 6 25 26 5; M 36 3 9 20 21 4; M 36 4 13 31 32 6; M 36 6 31 31 32 6;
  M 36 7 47 31 32 6; M 36 8 72 5 6 1; M 37 0 2 5 6 1; M 37 1 4 20 21 4; M 37 2 6 15 16 3; M 37 3 9 15 16 3;
  M 37 4 14 20 21 4; M 37 5 21 31 32 6; M 37 6 32 31 32 6; M 37 7 48 125 126 24; M 37 8 74 5 6 1; M 38 0 2 26 27 5;
  M 38 1 4 15 16 3; M 38 2 6 15 16 3; M 38 3 9 26 27 5; M 38 4 14 26 27 5; M 38 5 21 47 48 9; M 38 6 33 20 21 4;
  M 38 7 50 15 16 3; M 38 8 76 5 6 1; M 39 0 2 21 22 4; M 39 1 4 15 16 3; M 39 2 6 10 11 2; M 39 3 9 21 22 4;
  M 39 4 14 21 22 4; M 39 5 22 26 27 5; M 39 6 33 58 59 11; M 39 7 51 26 27 5; M 39 8 78 5 6 1; M 40 0 2 21 22 4;
  M 40 1 4 10 11 2; M 40 2 6 21 22 4; M 40 3 9 37 38 7; M 40 4 15 31 32 6; M 40 5 22 37 38 7; M 40 6 34 21 22 4;
  M 40 7 52 21 22 4; M 40 8 80 5 6 1; M 41 0 2 16 17 3; M 41 1 4 10 11 2; M 41 2 6 16 17 3; M 41 3 10 42 43 8;
  M 41 4 15 26 27 5; M 41 5 23 26 27 5; M 41 6 35 26 27 5; M 41 7 53 16 17 3; M 41 8 82 5 6 1; M 42 0 2 16 17 3;
  M 42 1 4 16 17 3; M 42 2 6 16 17 3; M 42 3 10 26 27 5; M 42 4 15 32 33 6; M 42 5 23 32 33 6; M 42 6 36 26 27 5;
  M 42 7 55 26 27 5; M 42 8 84 5 6 1; M 43 0 2 27 28 5; M 43 1 4 16 17 3; M 43 2 6 16 17 3; M 43 3 10 21 22 4;
  M 43 4 15 27 28 5; M 43 5 24 37 38 7; M 43 6 36 65 66 12; M 43 7 56 21 22 4; M 43 8 86 5 6 1; M 44 0 2 38 39 7;
  M 44 1 4 16 17 3; M 44 2 6 38 39 7; M 44 3 10 16 17 3; M 44 4 16 21 22 4; M 44 5 24 27 28 5; M 44 6 37 27 28 5;
  M 44 7 57 16 17 3; M 44 8 88 5 6 1; M 45 0 2 126 127 23; M 45 1 4 16 17 3; M 45 2 6 236 237 43; M 45 3 10 27 28 5;
  M 45 4 16 27 28 5; M 45 5 25 21 22 4; M 45 6 38 27 28 5; M 45 7 58 38 39 7; M 45 8 90 5 6 1; M 46 0 3 82 83 15;
  M 46 1 4 16 17 3; M 46 2 7 49 50 9; M 46 3 10 22 23 4; M 46 4 16 22 23 4; M 46 5 25 27 28 5; M 46 6 39 49 50 9;
  M 46 7 60 104 105 19; M 46 8 92 5 6 1; M 47 0 3 38 39 7; M 47 1 4 11 12 2; M 47 2 7 27 28 5; M 47 3 11 49 50 9;
  M 47 4 16 61 62 11; M 47 5 25 111 112 20; M 47 6 39 61 62 11; M 47 7 61 27 28 5; M 47 8 94 5 6 1; M 48 0 3 27 28 5;
  M 48 1 4 11 12 2; M 48 2 7 16 17 3; M 48 3 11 27 28 5; M 48 4 17 27 28 5; M 48 5 26 33 34 6; M 48 6 40 22 23 4;
  M 48 7 62 27 28 5; M 48 8 96 5 6 1].
Definition ttable : list tentry := [
  W 0 3 false 3 4 2; W 1 3 false 3 4 2; W 2 3 false 3 4 2; W 3 3 false 3 4 2; W 4 3 false 4 5 3; W 5 3 true 11 12 7;
  W 6 3 true 3 4 2; W 7 3 true 3 4 2; W 8 3 true 3 4 2; W 9 3 true 3 4 2; W 10 3 true 3 4 2; W 11 3 true 3 4 2;
  W 12 3 true 3 4 2; W 13 3 true 3 4 2; W 14 3 true 3 4 2; W 15 3 true 3 4 2; W 16 3 true 3 4 2; W 17 3 true 3 4 2;
  W 18 3 true 3 4 2; W 19 3 true 3 4 2; W 20 3 true 3 4 2; W 21 3 true 3 4 2; W 22 3 true 3 4 2; W 23 3 true 3 4 2;
  W 24 3 true 3 4 2; W 0 4 false 2 2 1; W 1 4 false 2 2 1; W 2 4 false 2 2 1; W 3 4 false 2 2 1; W 4 4 false 2 2 1;
  W 5 4 true 2 2 1; W 6 4 true 2 2 1; W 7 4 true 2 2 1; W 8 4 true 2 2 1; W 9 4 true 2 2 1; W 10 4 true 2 2 1;
  W 11 4 true 2 2 1; W 12 4 true 2 2 1; W 13 4 true 2 2 1; W 14 4 true 2 2 1; W 15 4 true 2 2 1; W 16 4 true 2 2 1;
  W 17 4 true 2 2 1; W 18 4 true 2 2 1; W 19 4 true 2 2 1; W 20 4 true 2 2 1; W 21 4 true 2 2 1; W 22 4 true 2 2 1;
  W 23 4 true 2 2 1; W 24 4 true 2 2 1; W 0 5 false 2 3 1; W 1 5 false 2 3 1; W 2 5 false 2 3 1; W 3 5 false 2 3 1;
  W 4 5 false 6 7 3; W 5 5 true 9 10 4; W 6 5 true 2 3 1; W 7 5 true 2 3 1; W 8 5 true 2 3 1; W 9 5 true 2 3 1;
  W 10 5 true 2 3 1; W 11 5 true 2 3 1; W 12 5 true 2 3 1; W 13 5 true 2 3 1; W 14 5 true 2 3 1; W 15 5 true 2 3 1;
  W 16 5 true 2 3 1; W 17 5 true 2 3 1; W 18 5 true 2 3 1; W 19 5 true 2 3 1; W 20 5 true 2 3 1; W 21 5 true 2 3 1;
  W 22 5 true 2 3 1; W 23 5 true 2 3 1; W 24 5 true 2 3 1; W 0 6 false 2 3 1; W 1 6 false 2 3 1; W 2 6 false 2 3 1;
  W 3 6 false 2 3 1; W 4 6 false 7 8 3; W 5 6 true 5 6 2; W 6 6 true 5 6 2; W 7 6 true 2 3 1; W 8 6 true 2 3 1;
  W 9 6 true 2 3 1; W 10 6 true 2 3 1; W 11 6 true 2 3 1; W 12 6 true 2 3 1; W 13 6 true 2 3 1; W 14 6 true 2 3 1;
  W 15 6 true 2 3 1; W 16 6 true 2 3 1; W 17 6 true 2 3 1; W 18 6 true 2 3 1; W 19 6 true 2 3 1; W 20 6 true 2 3 1;
  W 21 6 true 2 3 1; W 22 6 true 2 3 1; W 23 6 true 2 3 1; W 24 6 true 2 3 1; W 0 7 false 2 3 1; W 1 7 false 2 3 1;
  W 2 7 false 2 3 1; W 3 7 false 2 3 1; W 4 7 false 2 3 1; W 5 7 true 8 9 3; W 6 7 true 5 6 2; W 7 7 true 5 6 2;
  W 8 7 true 2 3 1; W 9 7 true 2 3 1; W 10 7 true 2 3 1; W 11 7 true 2 3 1; W 12 7 true 2 3 1; W 13 7 true 2 3 1;
  W 14 7 true 2 3 1; W 15 7 true 2 3 1; W 16 7 true 2 3 1; W 17 7 true 2 3 1; W 18 7 true 2 3 1; W 19 7 true 2 3 1;
  W 20 7 true 2 3 1; W 21 7 true 2 3 1; W 22 7 true 2 3 1; W 23 7 true 2 3 1; W 24 7 true 2 3 1; W 0 8 false 3 3 1;
  W 1 8 false 3 3 1; W 2 8 false 3 3 1; W 3 8 false 3 3 1; W 4 8 false 3 3 1; W 5 8 false 3 3 1; W 6 8 true 3 3 1;
  W 7 8 true 3 3 1; W 8 8 true 3 3 1; W 9 8 true 3 3 1; W 10 8 true 3 3 1; W 11 8 true 3 3 1; W 12 8 true 3 3 1;
  W 13 8 true 3 3 1; W 14 8 true 3 3 1; W 15 8 true 3 3 1; W 16 8 true 3 3 1; W 17 8 true 3 3 1; W 18 8 true 3 3 1;
  W 19 8 true 3 3 1; W 20 8 true 3 3 1; W 21 8 true 3 3 1; W 22 8 true 3 3 1; W 23 8 true 3 3 1; W 24 8 true 3 3 1;
  W 0 9 false 3 4 1; W 1 9 false 3 4 1; W 2 9 false 3 4 1; W 3 9 false 3 4 1; W 4 9 false 3 4 1; W 5 9 false 9 10 3;
  W 6 9 true 3 4 1; W 7 9 true 3 4 1; W 8 9 true 3 4 1; W 9 9 true 3 4 1; W 10 9 true 3 4 1; W 11 9 true 3 4 1;
  W 12 9 true 3 4 1; W 13 9 true 3 4 1; W 14 9 true 3 4 1; W 15 9 true 3 4 1; W 16 9 true 3 4 1; W 17 9 true 3 4 1;
  W 18 9 true 3 4 1; W 19 9 true 3 4 1; W 20 9 true 3 4 1; W 21 9 true 3 4 1; W 22 9 true 3 4 1; W 23 9 true 3 4 1;
  W 24 9 true 3 4 1; W 0 10 false 3 4 1; W 1 10 false 3 4 1; W 2 10 false 3 4 1; W 3 10 false 3 4 1; W 4 10 false 3 4 1;
  W 5 10 false 3 4 1; W 6 10 true 13 14 4; W 7 10 true 3 4 1; W 8 10 true 3 4 1; W 9 10 true 3 4 1; W 10 10 true 3 4 1;
  W 11 10 true 3 4 1; W 12 10 true 3 4 1; W 13 10 true 3 4 1; W 14 10 true 3 4 1; W 15 10 true 3 4 1; W 16 10 true 3 4 1;
  W 17 10 true 3 4 1; W 18 10 true 3 4 1; W 19 10 true 3 4 1; W 20 10 true 3 4 1; W 21 10 true 3 4 1; W 22 10 true 3 4 1;
  W 23 10 true 3 4 1; W 24 10 true 3 4 1; W 0 11 false 3 4 1; W 1 11 false 3 4 1; W 2 11 false 3 4 1; W 3 11 false 3 4 1;
  W 4 11 false 3 4 1; W 5 11 false 3 4 1; W 6 11 false 6 7 2; W 7 11 true 3 4 1; W 8 11 true 3 4 1; W 9 11 true 3 4 1;
  W 10 11 true 3 4 1; W 11 11 true 3 4 1; W 12 11 true 3 4 1; W 13 11 true 3 4 1; W 14 11 true 3 4 1; W 15 11 true 3 4 1;
  W 16 11 true 3 4 1; W 17 11 true 3 4 1; W 18 11 true 3 4 1; W 19 11 true 3 4 1; W 20 11 true 3 4 1; W 21 11 true 3 4 1;
  W 22 11 true 3 4 1; W 23 11 true 3 4 1; W 24 11 true 3 4 1; W 0 12 false 3 4 1; W 1 12 false 3 4 1; W 2 12 false 3 4 1;
  W 3 12 false 3 4 1; W 4 12 false 3 4 1; W 5 12 false 3 4 1; W 6 12 false 3 4 1; W 7 12 true 7 8 2; W 8 12 true 3 4 1;
  W 9 12 true 3 4 1; W 10 12 true 3 4 1; W 11 12 true 3 4 1; W 12 12 true 3 4 1; W 13 12 true 3 4 1; W 14 12 true 3 4 1;
  W 15 12 true 3 4 1; W 16 12 true 3 4 1; W 17 12 true 3 4 1; W 18 12 true 3 4 1; W 19 12 true 3 4 1; W 20 12 true 3 4 1;
  W 21 12 true 3 4 1; W 22 12 true 3 4 1; W 23 12 true 3 4 1; W 24 12 true 3 4 1; W 0 13 false 3 4 1; W 1 13 false 3 4 1;
  W 2 13 false 3 4 1; W 3 13 false 3 4 1; W 4 13 false 3 4 1; W 5 13 false 3 4 1; W 6 13 false 3 4 1; W 7 13 true 11 12 3;
  W 8 13 true 7 8 2; W 9 13 true 3 4 1; W 10 13 true 3 4 1; W 11 13 true 3 4 1; W 12 13 true 3 4 1; W 13 13 true 3 4 1;
  W 14 13 true 3 4 1; W 15 13 true 3 4 1; W 16 13 true 3 4 1; W 17 13 true 3 4 1; W 18 13 true 3 4 1; W 19 13 true 3 4 1;
  W 20 13 true 3 4 1; W 21 13 true 3 4 1; W 22 13 true 3 4 1; W 23 13 true 3 4 1; W 24 13 true 3 4 1; W 0 14 false 3 4 1;
  W 1 14 false 3 4 1; W 2 14 false 3 4 1; W 3 14 false 3 4 1; W 4 14 false 3 4 1; W 5 14 false 3 4 1; W 6 14 false 3 4 1;
  W 7 14 false 3 4 1; W 8 14 true 7 8 2; W 9 14 true 3 4 1; W 10 14 true 3 4 1; W 11 14 true 3 4 1; W 12 14 true 3 4 1;
  W 13 14 true 3 4 1; W 14 14 true 3 4 1; W 15 14 true 3 4 1; W 16 14 true 3 4 1; W 17 14 true 3 4 1; W 18 14 true 3 4 1;
  W 19 14 true 3 4 1; W 20 14 true 3 4 1; W 21 14 true 3 4 1; W 22 14 true 3 4 1; W 23 14 true 3 4 1; W 24 14 true 3 4 1;
  W 0 15 false 3 4 1; W 1 15 false 3 4 1; W 2 15 false 3 4 1; W 3 15 false 3 4 1; W 4 15 false 3 4 1; W 5 15 false 3 4 1;
  W 6 15 false 3 4 1; W 7 15 false 3 4 1; W 8 15 true 15 16 4; W 9 15 true 7 8 2; W 10 15 true 3 4 1; W 11 15 true 3 4 1;
  W 12 15 true 3 4 1; W 13 15 true 3 4 1; W 14 15 true 3 4 1; W 15 15 true 3 4 1; W 16 15 true 3 4 1; W 17 15 true 3 4 1;
  W 18 15 true 3 4 1; W 19 15 true 3 4 1; W 20 15 true 3 4 1; W 21 15 true 3 4 1; W 22 15 true 3 4 1; W 23 15 true 3 4 1;
  W 24 15 true 3 4 1; W 0 16 false 4 4 1; W 1 16 false 4 4 1; W 2 16 false 4 4 1; W 3 16 false 4 4 1; W 4 16 false 4 4 1;
  W 5 16 false 4 4 1; W 6 16 false 4 4 1; W 7 16 false 4 4 1; W 8 16 false 4 4 1; W 9 16 true 4 4 1; W 10 16 true 4 4 1;
  W 11 16 true 4 4 1; W 12 16 true 4 4 1; W 13 16 true 4 4 1; W 14 16 true 4 4 1; W 15 16 true 4 4 1; W 16 16 true 4 4 1;
  W 17 16 true 4 4 1; W 18 16 true 4 4 1; W 19 16 true 4 4 1; W 20 16 true 4 4 1; W 21 16 true 4 4 1; W 22 16 true 4 4 1;
  W 23 16 true 4 4 1; W 24 16 true 4 4 1; W 0 17 false 4 5 1; W 1 17 false 4 5 1; W 2 17 false 4 5 1; W 3 17 false 4 5 1;
  W 4 17 false 4 5 1; W 5 17 false 4 5 1; W 6 17 false 4 5 1; W 7 17 false 4 5 1; W 8 17 false 12 13 3; W 9 17 true 4 5 1;
  W 10 17 true 4 5 1; W 11 17 true 4 5 1; W 12 17 true 4 5 1; W 13 17 true 4 5 1; W 14 17 true 4 5 1; W 15 17 true 4 5 1;
  W 16 17 true 4 5 1; W 17 17 true 4 5 1; W 18 17 true 4 5 1; W 19 17 true 4 5 1; W 20 17 true 4 5 1; W 21 17 true 4 5 1;
  W 22 17 true 4 5 1; W 23 17 true 4 5 1; W 24 17 true 4 5 1; W 0 18 false 4 5 1; W 1 18 false 4 5 1; W 2 18 false 4 5 1;
  W 3 18 false 4 5 1; W 4 18 false 4 5 1; W 5 18 false 4 5 1; W 6 18 false 4 5 1; W 7 18 false 4 5 1; W 8 18 false 8 9 2;
  W 9 18 true 25 26 6; W 10 18 true 4 5 1; W 11 18 true 4 5 1; W 12 18 true 4 5 1; W 13 18 true 4 5 1; W 14 18 true 4 5 1;
  W 15 18 true 4 5 1; W 16 18 true 4 5 1; W 17 18 true 4 5 1; W 18 18 true 4 5 1; W 19 18 true 4 5 1; W 20 18 true 4 5 1;
  W 21 18 true 4 5 1; W 22 18 true 4 5 1; W 23 18 true 4 5 1; W 24 18 true 4 5 1; W 0 19 false 4 5 1; W 1 19 false 4 5 1;
  W 2 19 false 4 5 1; W 3 19 false 4 5 1; W 4 19 false 4 5 1; W 5 19 false 4 5 1; W 6 19 false 4 5 1; W 7 19 false 4 5 1;
  W 8 19 false 4 5 1; W 9 19 false 16 17 4; W 10 19 true 4 5 1; W 11 19 true 4 5 1; W 12 19 true 4 5 1; W 13 19 true 4 5 1;
  W 14 19 true 4 5 1; W 15 19 true 4 5 1; W 16 19 true 4 5 1; W 17 19 true 4 5 1; W 18 19 true 4 5 1; W 19 19 true 4 5 1;
  W 20 19 true 4 5 1; W 21 19 true 4 5 1; W 22 19 true 4 5 1; W 23 19 true 4 5 1; W 24 19 true 4 5 1; W 0 20 false 4 5 1;
  W 1 20 false 4 5 1; W 2 20 false 4 5 1; W 3 20 false 4 5 1; W 4 20 false 4 5 1; W 5 20 false 4 5 1; W 6 20 false 4 5 1;
  W 7 20 false 4 5 1; W 8 20 false 4 5 1; W 9 20 false 8 9 2; W 10 20 true 17 18 4; W 11 20 true 4 5 1; W 12 20 true 4 5 1;
  W 13 20 true 4 5 1; W 14 20 true 4 5 1; W 15 20 true 4 5 1; W 16 20 true 4 5 1; W 17 20 true 4 5 1; W 18 20 true 4 5 1;
  W 19 20 true 4 5 1; W 20 20 true 4 5 1; W 21 20 true 4 5 1; W 22 20 true 4 5 1; W 23 20 true 4 5 1; W 24 20 true 4 5 1;
  W 0 21 false 4 5 1; W 1 21 false 4 5 1; W 2 21 false 4 5 1; W 3 21 false 4 5 1; W 4 21 false 4 5 1; W 5 21 false 4 5 1;
  W 6 21 false 4 5 1; W 7 21 false 4 5 1; W 8 21 false 4 5 1; W 9 21 false 4 5 1; W 10 21 true 13 14 3; W 11 21 true 4 5 1;
  W 12 21 true 4 5 1; W 13 21 true 4 5 1; W 14 21 true 4 5 1; W 15 21 true 4 5 1; W 16 21 true 4 5 1; W 17 21 true 4 5 1;
  W 18 21 true 4 5 1; W 19 21 true 4 5 1; W 20 21 true 4 5 1; W 21 21 true 4 5 1; W 22 21 true 4 5 1; W 23 21 true 4 5 1;
  W 24 21 true 4 5 1; W 0 22 false 4 5 1; W 1 22 false 4 5 1; W 2 22 false 4 5 1; W 3 22 false 4 5 1; W 4 22 false 4 5 1;
  W 5 22 false 4 5 1; W 6 22 false 4 5 1; W 7 22 false 4 5 1; W 8 22 false 4 5 1; W 9 22 false 4 5 1; W 10 22 false 8 9 2;
  W 11 22 true 13 14 3; W 12 22 true 4 5 1; W 13 22 true 4 5 1; W 14 22 true 4 5 1; W 15 22 true 4 5 1; W 16 22 true 4 5 1;
  W 17 22 true 4 5 1; W 18 22 true 4 5 1; W 19 22 true 4 5 1; W 20 22 true 4 5 1; W 21 22 true 4 5 1; W 22 22 true 4 5 1;
  W 23 22 true 4 5 1; W 24 22 true 4 5 1; W 0 23 false 4 5 1; W 1 23 false 4 5 1; W 2 23 false 4 5 1; W 3 23 false 4 5 1;
  W 4 23 false 4 5 1; W 5 23 false 4 5 1; W 6 23 false 4 5 1; W 7 23 false 4 5 1; W 8 23 false 4 5 1; W 9 23 false 4 5 1;
  W 10 23 false 13 14 3; W 11 23 true 9 10 2; W 12 23 true 4 5 1; W 13 23 true 4 5 1; W 14 23 true 4 5 1; W 15 23 true 4 5 1;
  W 16 23 true 4 5 1; W 17 23 true 4 5 1; W 18 23 true 4 5 1; W 19 23 true 4 5 1; W 20 23 true 4 5 1; W 21 23 true 4 5 1;
  W 22 23 true 4 5 1; W 23 23 true 4 5 1; W 24 23 true 4 5 1; W 0 24 false 4 5 1; W 1 24 false 4 5 1; W 2 24 false 4 5 1;
  W 3 24 false 4 5 1; W 4 24 false 4 5 1; W 5 24 false 4 5 1; W 6 24 false 4 5 1; W 7 24 false 4 5 1; W 8 24 false 4 5 1;
  W 9 24 false 4 5 1; W 10 24 false 4 5 1; W 11 24 true 32 33 7; W 12 24 true 9 10 2; W 13 24 true 4 5 1; W 14 24 true 4 5 1;
  W 15 24 true 4 5 1; W 16 24 true 4 5 1; W 17 24 true 4 5 1; W 18 24 true 4 5 1; W 19 24 true 4 5 1; W 20 24 true 4 5 1;
  W 21 24 true 4 5 1; W 22 24 true 4 5 1; W 23 24 true 4 5 1; W 24 24 true 4 5 1; W 0 25 false 4 5 1; W 1 25 false 4 5 1;
  W 2 25 false 4 5 1; W 3 25 false 4 5 1; W 4 25 false 4 5 1; W 5 25 false 4 5 1; W 6 25 false 4 5 1; W 7 25 false 4 5 1;
  W 8 25 false 4 5 1; W 9 25 false 4 5 1; W 10 25 false 4 5 1; W 11 25 false 13 14 3; W 12 25 true 9 10 2; W 13 25 true 4 5 1;
  W 14 25 true 4 5 1; W 15 25 true 4 5 1; W 16 25 true 4 5 1; W 17 25 true 4 5 1; W 18 25 true 4 5 1; W 19 25 true 4 5 1;
  W 20 25 true 4 5 1; W 21 25 true 4 5 1; W 22 25 true 4 5 1; W 23 25 true 4 5 1; W 24 25 true 4 5 1; W 0 26 false 4 5 1;
  W 1 26 false 4 5 1; W 2 26 false 4 5 1; W 3 26 false 4 5 1; W 4 26 false 4 5 1; W 5 26 false 4 5 1; W 6 26 false 4 5 1;
  W 7 26 false 4 5 1; W 8 26 false 4 5 1; W 9 26 false 4 5 1; W 10 26 false 4 5 1; W 11 26 false 4 5 1; W 12 26 true 9 10 2;
  W 13 26 true 9 10 2; W 14 26 true 4 5 1; W 15 26 true 4 5 1; W 16 26 true 4 5 1; W 17 26 true 4 5 1; W 18 26 true 4 5 1;
  W 19 26 true 4 5 1; W 20 26 true 4 5 1; W 21 26 true 4 5 1; W 22 26 true 4 5 1; W 23 26 true 4 5 1; W 24 26 true 4 5 1;
  W 0 27 false 4 5 1; W 1 27 false 4 5 1; W 2 27 false 4 5 1; W 3 27 false 4 5 1; W 4 27 false 4 5 1; W 5 27 false 4 5 1;
  W 6 27 false 4 5 1; W 7 27 false 4 5 1; W 8 27 false 4 5 1; W 9 27 false 4 5 1; W 10 27 false 4 5 1; W 11 27 false 4 5 1;
  W 12 27 false 175 176 37; W 13 27 true 9 10 2; W 14 27 true 4 5 1; W 15 27 true 4 5 1; W 16 27 true 4 5 1; W 17 27 true 4 5 1;
  W 18 27 true 4 5 1; W 19 27 true 4 5 1; W 20 27 true 4 5 1; W 21 27 true 4 5 1; W 22 27 true 4 5 1; W 23 27 true 4 5 1;
  W 24 27 true 4 5 1; W 0 28 false 4 5 1; W 1 28 false 4 5 1; W 2 28 false 4 5 1; W 3 28 false 4 5 1; W 4 28 false 4 5 1;
  W 5 28 false 4 5 1; W 6 28 false 4 5 1; W 7 28 false 4 5 1; W 8 28 false 4 5 1; W 9 28 false 4 5 1; W 10 28 false 4 5 1;
  W 11 28 false 4 5 1; W 12 28 false 4 5 1; W 13 28 true 9 10 2; W 14 28 true 9 10 2; W 15 28 true 4 5 1; W 16 28 true 4 5 1;
  W 17 28 true 4 5 1; W 18 28 true 4 5 1; W 19 28 true 4 5 1; W 20 28 true 4 5 1; W 21 28 true 4 5 1; W 22 28 true 4 5 1;
  W 23 28 true 4 5 1; W 24 28 true 4 5 1; W 0 29 false 4 5 1; W 1 29 false 4 5 1; W 2 29 false 4 5 1; W 3 29 false 4 5 1;
  W 4 29 false 4 5 1; W 5 29 false 4 5 1; W 6 29 false 4 5 1; W 7 29 false 4 5 1; W 8 29 false 4 5 1; W 9 29 false 4 5 1;
  W 10 29 false 4 5 1; W 11 29 false 4 5 1; W 12 29 false 4 5 1; W 13 29 true 19 20 4; W 14 29 true 9 10 2; W 15 29 true 4 5 1;
  W 16 29 true 4 5 1; W 17 29 true 4 5 1; W 18 29 true 4 5 1; W 19 29 true 4 5 1; W 20 29 true 4 5 1; W 21 29 true 4 5 1;
  W 22 29 true 4 5 1; W 23 29 true 4 5 1; W 24 29 true 4 5 1; W 0 30 false 4 5 1; W 1 30 false 4 5 1; W 2 30 false 4 5 1;
  W 3 30 false 4 5 1; W 4 30 false 4 5 1; W 5 30 false 4 5 1; W 6 30 false 4 5 1; W 7 30 false 4 5 1; W 8 30 false 4 5 1;
  W 9 30 false 4 5 1; W 10 30 false 4 5 1; W 11 30 false 4 5 1; W 12 30 false 4 5 1; W 13 30 false 53 54 11; W 14 30 true 9 10 2;
  W 15 30 true 9 10 2; W 16 30 true 4 5 1; W 17 30 true 4 5 1; W 18 30 true 4 5 1; W 19 30 true 4 5 1; W 20 30 true 4 5 1;
  W 21 30 true 4 5 1; W 22 30 true 4 5 1; W 23 30 true 4 5 1; W 24 30 true 4 5 1; W 0 31 false 4 5 1; W 1 31 false 4 5 1;
  W 2 31 false 4 5 1; W 3 31 false 4 5 1; W 4 31 false 4 5 1; W 5 31 false 4 5 1; W 6 31 false 4 5 1; W 7 31 false 4 5 1;
  W 8 31 false 4 5 1; W 9 31 false 4 5 1; W 10 31 false 4 5 1; W 11 31 false 4 5 1; W 12 31 false 4 5 1; W 13 31 false 4 5 1;
  W 14 31 true 14 15 3; W 15 31 true 9 10 2; W 16 31 true 4 5 1; W 17 31 true 4 5 1; W 18 31 true 4 5 1; W 19 31 true 4 5 1;
  W 20 31 true 4 5 1; W 21 31 true 4 5 1; W 22 31 true 4 5 1; W 23 31 true 4 5 1; W 24 31 true 4 5 1; W 0 32 false 5 5 1;
  W 1 32 false 5 5 1; W 2 32 false 5 5 1; W 3 32 false 5 5 1; W 4 32 false 5 5 1; W 5 32 false 5 5 1; W 6 32 false 5 5 1;
  W 7 32 false 5 5 1; W 8 32 false 5 5 1; W 9 32 false 5 5 1; W 10 32 false 5 5 1; W 11 32 false 5 5 1; W 12 32 false 5 5 1;
  W 13 32 false 5 5 1; W 14 32 true 5 5 1; W 15 32 true 5 5 1; W 16 32 true 5 5 1; W 17 32 true 5 5 1; W 18 32 true 5 5 1;
  W 19 32 true 5 5 1; W 20 32 true 5 5 1; W 21 32 true 5 5 1; W 22 32 true 5 5 1; W 23 32 true 5 5 1; W 24 32 true 5 5 1].
Close Scope N_scope.
Lemma mtable_ok : forallb mcheck mtable = true. Proof. vm_compute. reflexivity. Qed.
Lemma ttable_ok : forallb tcheck ttable = true. Proof. vm_compute. reflexivity. Qed.

(** Under [th_real] the thresholds can be computed on the table's range. *)
Definition tabled (T : thresholds) : thresholds := with_table mtable ttable T.
Lemma tabled_eq T : th_real T -> tabled T = T.
Proof. intros H. apply with_table_eq; auto using mtable_ok, ttable_ok. Qed.
