(** * Table4: more certified values of MAXSZ(m,i), 2 <= m <= 162 (generated by tools/gen_table4.py; as Table, the kernel
    checks every entry). *)
From Verif Require Import Base Thresholds.
From Coq Require Import FunctionalExtensionality.
Local Notation M a b c d e f := (Build_mentry a b c d e f).
Open Scope N_scope.
Definition mtable4 : list mentry := [
  M 2 0 4 1 1 1; M 3 0 2 9 10 6; M 3 1 2 6 7 4; M 3 2 3 45 46 29; M 3 3 3 7 8 5; M 3 4 3 11 12 7;
  M 3 5 4 4 5 3; M 4 0 2 2 2 1; M 4 1 2 2 2 1; M 4 2 2 2 2 1; M 4 3 3 2 2 1; M 4 4 4 2 2 1;
  M 5 0 1 9 10 4; M 5 1 2 4 5 2; M 5 2 2 9 10 4; M 5 3 3 9 10 4; M 5 4 4 9 10 4; M 5 5 5 4 5 2;
  M 6 0 1 5 6 2; M 6 1 2 7 8 3; M 6 2 2 18 19 7; M 6 3 3 5 6 2; M 6 4 4 5 6 2; M 6 5 5 18 19 7;
  M 7 0 1 8 9 3; M 7 1 2 5 6 2; M 7 2 2 14 15 5; M 7 3 3 11 12 4; M 7 4 4 87 88 31; M 7 5 6 8 9 3;
  M 7 6 8 5 6 2; M 7 7 10 8 9 3; M 8 0 1 3 3 1; M 8 1 2 3 3 1; M 8 2 3 3 3 1; M 8 3 4 3 3 1;
  M 8 4 5 3 3 1; M 8 5 7 3 3 1; M 8 6 9 3 3 1; M 9 0 1 19 20 6; M 9 1 2 6 7 2; M 9 2 3 12 13 4;
  M 9 3 4 12 13 4; M 9 4 5 19 20 6; M 9 5 7 6 7 2; M 9 6 10 15 16 5; M 10 0 1 13 14 4; M 10 1 2 6 7 2;
  M 10 2 3 6 7 2; M 10 3 4 13 14 4; M 10 4 6 9 10 3; M 10 5 8 9 10 3; M 10 6 10 43 44 13; M 11 0 1 10 11 3;
  M 11 1 2 10 11 3; M 11 2 3 10 11 3; M 11 3 4 10 11 3; M 11 4 6 10 11 3; M 11 5 8 10 11 3; M 11 6 11 17 18 5;
  M 12 0 1 7 8 2; M 12 1 2 7 8 2; M 12 2 3 7 8 2; M 12 3 4 25 26 7; M 12 4 6 7 8 2; M 12 5 9 10 11 3;
  M 13 0 1 11 12 3; M 13 1 2 7 8 2; M 13 2 3 7 8 2; M 13 3 5 25 26 7; M 13 4 7 25 26 7; M 13 5 9 11 12 3;
  M 14 0 1 15 16 4; M 14 1 2 11 12 3; M 14 2 3 11 12 3; M 14 3 5 22 23 6; M 14 4 7 11 12 3; M 14 5 10 22 23 6;
  M 15 0 1 31 32 8; M 15 1 2 15 16 4; M 15 2 3 23 24 6; M 15 3 5 11 12 3; M 15 4 7 19 20 5; M 15 5 10 23 24 6;
  M 15 6 15 11 12 3; M 15 7 21 7 8 2; M 16 0 2 4 4 1; M 16 1 2 4 4 1; M 16 2 4 4 4 1; M 16 3 5 4 4 1;
  M 16 4 8 4 4 1; M 16 5 11 4 4 1; M 16 6 16 4 4 1; M 17 0 2 36 37 9; M 17 1 2 49 50 12; M 17 2 4 28 29 7;
  M 17 3 5 49 50 12; M 17 4 8 16 17 4; M 17 5 11 49 50 12; M 17 6 16 49 50 12; M 18 0 2 20 21 5; M 18 1 2 25 26 6;
  M 18 2 4 16 17 4; M 18 3 6 45 46 11; M 18 4 8 25 26 6; M 18 5 12 16 17 4; M 18 6 17 25 26 6; M 19 0 2 12 13 3;
  M 19 1 3 16 17 4; M 19 2 4 12 13 3; M 19 3 6 12 13 3; M 19 4 8 55 56 13; M 19 5 12 21 22 5; M 19 6 18 21 22 5;
  M 20 0 2 12 13 3; M 20 1 3 12 13 3; M 20 2 4 17 18 4; M 20 3 6 17 18 4; M 20 4 9 21 22 5; M 20 5 13 21 22 5;
  M 21 0 2 8 9 2; M 21 1 3 8 9 2; M 21 2 4 13 14 3; M 21 3 6 13 14 3; M 21 4 9 13 14 3; M 21 5 13 13 14 3;
  M 21 6 20 21 22 5; M 21 7 29 122 123 28; M 22 0 2 8 9 2; M 22 1 3 8 9 2; M 22 2 4 13 14 3; M 22 3 6 22 23 5;
  M 22 4 9 31 32 7; M 22 5 14 17 18 4; M 23 0 2 13 14 3; M 23 1 3 13 14 3; M 23 2 4 9 10 2; M 23 3 6 104 105 23;
  M 23 4 10 22 23 5; M 23 5 14 18 19 4; M 23 6 21 18 19 4; M 23 7 31 13 14 3; M 24 0 2 13 14 3; M 24 1 3 13 14 3;
  M 24 2 4 32 33 7; M 24 3 7 22 23 5; M 24 4 10 18 19 4; M 24 5 15 13 14 3; M 24 6 22 18 19 4; M 24 7 32 9 10 2;
  M 25 0 2 9 10 2; M 25 1 3 13 14 3; M 25 2 4 65 66 14; M 25 3 7 13 14 3; M 25 4 10 23 24 5; M 25 5 15 23 24 5;
  M 25 6 23 27 28 6; M 25 7 34 13 14 3; M 26 0 2 9 10 2; M 26 1 3 9 10 2; M 26 2 5 18 19 4; M 26 3 7 18 19 4;
  M 26 4 11 32 33 7; M 26 5 16 18 19 4; M 26 6 23 47 48 10; M 26 7 35 18 19 4; M 27 0 2 9 10 2; M 27 1 3 9 10 2;
  M 27 2 5 23 24 5; M 27 3 7 14 15 3; M 27 4 11 23 24 5; M 27 5 16 19 20 4; M 27 6 24 14 15 3; M 27 7 36 14 15 3;
  M 28 0 2 9 10 2; M 28 1 3 14 15 3; M 28 2 5 9 10 2; M 28 3 7 19 20 4; M 28 4 11 19 20 4; M 28 5 17 28 29 6;
  M 28 6 25 14 15 3; M 29 0 2 9 10 2; M 29 1 3 14 15 3; M 29 2 5 14 15 3; M 29 3 8 38 39 8; M 29 4 11 34 35 7;
  M 29 5 17 24 25 5; M 29 6 26 38 39 8; M 30 0 2 9 10 2; M 30 1 3 19 20 4; M 30 2 5 14 15 3; M 30 3 8 14 15 3;
  M 30 4 12 14 15 3; M 30 5 18 53 54 11; M 30 6 27 53 54 11; M 31 0 2 14 15 3; M 31 1 3 24 25 5; M 31 2 5 19 20 4;
  M 31 3 8 19 20 4; M 31 4 12 24 25 5; M 31 5 18 34 35 7; M 31 6 27 54 55 11; M 32 0 2 5 5 1; M 32 1 3 5 5 1;
  M 32 2 5 5 5 1; M 32 3 8 5 5 1; M 32 4 12 5 5 1; M 32 5 19 5 5 1; M 32 6 28 5 5 1; M 33 0 2 10 11 2;
  M 33 1 3 10 11 2; M 33 2 5 10 11 2; M 33 3 8 15 16 3; M 33 4 13 65 66 13; M 33 5 19 20 21 4; M 33 6 29 30 31 6;
  M 34 0 2 10 11 2; M 34 1 3 61 62 12; M 34 2 5 61 62 12; M 34 3 8 61 62 12; M 34 4 13 25 26 5; M 34 5 20 45 46 9;
  M 34 6 30 40 41 8; M 35 0 2 10 11 2; M 35 1 4 117 118 23; M 35 2 6 35 36 7; M 35 3 9 35 36 7; M 35 4 13 41 42 8;
  M 35 5 20 20 21 4; M 35 6 30 41 42 8; M 36 0 2 5 6 1; M 36 1 4 25 26 5; M 36 2 6 25 26 5; M 36 3 9 20 21 4;
  M 36 4 13 31 32 6; M 36 5 21 17980 17981 3478; M 36 6 31 31 32 6; M 37 0 2 5 6 1; M 37 1 4 20 21 4; M 37 2 6 15 16 3;
  M 37 3 9 15 16 3; M 37 4 14 20 21 4; M 37 5 21 31 32 6; M 37 6 32 31 32 6; M 38 0 2 26 27 5; M 38 1 4 15 16 3;
  M 38 2 6 15 16 3; M 38 3 9 26 27 5; M 38 4 14 26 27 5; M 38 5 21 47 48 9; M 38 6 33 20 21 4; M 38 7 50 15 16 3;
  M 39 0 2 21 22 4; M 39 1 4 15 16 3; M 39 2 6 10 11 2; M 39 3 9 21 22 4; M 39 4 14 21 22 4; M 39 5 22 26 27 5;
  M 39 6 33 58 59 11; M 40 0 2 21 22 4; M 40 1 4 10 11 2; M 40 2 6 21 22 4; M 40 3 9 37 38 7; M 40 4 15 31 32 6;
  M 40 5 22 37 38 7; M 40 6 34 21 22 4; M 41 0 2 16 17 3; M 41 1 4 10 11 2; M 41 2 6 16 17 3; M 41 3 10 42 43 8;
  M 41 4 15 26 27 5; M 41 5 23 26 27 5; M 41 6 35 26 27 5; M 42 0 2 16 17 3; M 42 1 4 16 17 3; M 42 2 6 16 17 3;
  M 42 3 10 26 27 5; M 42 4 15 32 33 6; M 42 5 23 32 33 6; M 42 6 36 26 27 5; M 43 0 2 27 28 5; M 43 1 4 16 17 3;
  M 43 2 6 16 17 3; M 43 3 10 21 22 4; M 43 4 15 27 28 5; M 43 5 24 37 38 7; M 43 6 36 65 66 12; M 44 0 2 38 39 7;
  M 44 1 4 16 17 3; M 44 2 6 38 39 7; M 44 3 10 16 17 3; M 44 4 16 21 22 4; M 44 5 24 27 28 5; M 44 6 37 27 28 5;
  M 45 0 2 126 127 23; M 45 1 4 16 17 3; M 45 2 6 236 237 43; M 45 3 10 27 28 5; M 45 4 16 27 28 5; M 45 5 25 21 22 4;
  M 46 0 3 82 83 15; M 46 1 4 16 17 3; M 46 2 7 49 50 9; M 46 3 10 22 23 4; M 46 4 16 22 23 4; M 46 5 25 27 28 5;
  M 46 6 39 49 50 9; M 47 0 3 38 39 7; M 47 1 4 11 12 2; M 47 2 7 27 28 5; M 47 3 11 49 50 9; M 47 4 16 61 62 11;
  M 47 5 25 111 112 20; M 47 6 39 61 62 11; M 48 0 3 27 28 5; M 48 1 4 11 12 2; M 48 2 7 16 17 3; M 48 3 11 27 28 5;
  M 48 4 17 27 28 5; M 48 5 26 33 34 6; M 48 6 40 22 23 4; M 48 7 62 27 28 5; M 49 0 3 16 17 3; M 49 1 4 11 12 2;
  M 49 2 7 16 17 3; M 49 3 11 22 23 4; M 49 4 17 22 23 4; M 49 5 26 28 29 5; M 49 6 41 33 34 6; M 50 0 3 16 17 3;
  M 50 1 4 28 29 5; M 50 2 7 22 23 4; M 50 3 11 22 23 4; M 50 4 17 28 29 5; M 50 5 27 33 34 6; M 50 6 42 33 34 6;
  M 51 0 3 22 23 4; M 51 1 4 17 18 3; M 51 2 7 22 23 4; M 51 3 11 28 29 5; M 51 4 17 329 330 58; M 51 5 27 34 35 6;
  M 51 6 42 34 35 6; M 52 0 3 22 23 4; M 52 1 4 17 18 3; M 52 2 7 17 18 3; M 52 3 11 17 18 3; M 52 4 18 22 23 4;
  M 52 5 28 22 23 4; M 52 6 43 28 29 5; M 53 0 3 22 23 4; M 53 1 4 63 64 11; M 53 2 7 17 18 3; M 53 3 11 40 41 7;
  M 53 4 18 28 29 5; M 53 5 28 34 35 6; M 53 6 44 28 29 5; M 54 0 3 11 12 2; M 54 1 5 51 52 9; M 54 2 7 23 24 4;
  M 54 3 12 51 52 9; M 54 4 18 23 24 4; M 54 5 29 74 75 13; M 54 6 45 143 144 25; M 55 0 3 11 12 2; M 55 1 5 28 29 5;
  M 55 2 7 23 24 4; M 55 3 12 28 29 5; M 55 4 19 80 81 14; M 55 5 29 34 35 6; M 55 6 45 46 47 8; M 56 0 3 11 12 2;
  M 56 1 5 34 35 6; M 56 2 8 150 151 26; M 56 3 12 34 35 6; M 56 4 19 34 35 6; M 56 5 29 29 30 5; M 56 6 46 40 41 7;
  M 57 0 3 11 12 2; M 57 1 5 34 35 6; M 57 2 8 34 35 6; M 57 3 12 23 24 4; M 57 4 19 23 24 4; M 57 5 30 40 41 7;
  M 57 6 47 34 35 6; M 58 0 3 11 12 2; M 58 1 5 11 12 2; M 58 2 8 46 47 8; M 58 3 12 29 30 5; M 58 4 19 35 36 6;
  M 58 5 30 35 36 6; M 58 6 47 41 42 7; M 59 0 3 11 12 2; M 59 1 5 11 12 2; M 59 2 8 17 18 3; M 59 3 12 41 42 7;
  M 59 4 20 52 53 9; M 59 5 31 52 53 9; M 59 6 48 29 30 5; M 60 0 3 11 12 2; M 60 1 5 17 18 3; M 60 2 8 17 18 3;
  M 60 3 13 64 65 11; M 60 4 20 23 24 4; M 60 5 31 35 36 6; M 60 6 49 64 65 11; M 61 0 3 17 18 3; M 61 1 5 17 18 3;
  M 61 2 8 23 24 4; M 61 3 13 88 89 15; M 61 4 20 35 36 6; M 61 5 32 88 89 15; M 61 6 50 88 89 15; M 62 0 3 17 18 3;
  M 62 1 5 17 18 3; M 62 2 8 23 24 4; M 62 3 13 23 24 4; M 62 4 20 65 66 11; M 62 5 32 41 42 7; M 62 6 50 71 72 12;
  M 63 0 3 17 18 3; M 63 1 5 23 24 4; M 63 2 8 35 36 6; M 63 3 13 29 30 5; M 63 4 21 23 24 4; M 63 5 32 185 186 31;
  M 63 6 51 47 48 8; M 63 7 80 41 42 7; M 64 0 3 6 6 1; M 64 1 5 6 6 1; M 64 2 8 6 6 1; M 64 3 13 6 6 1;
  M 64 4 21 6 6 1; M 64 5 33 6 6 1; M 64 6 52 6 6 1; M 64 7 81 6 6 1; M 65 0 3 12 13 2; M 65 1 5 18 19 3;
  M 65 2 8 18 19 3; M 65 3 13 24 25 4; M 65 4 21 36 37 6; M 65 5 33 30 31 5; M 65 6 52 271 272 45; M 65 7 82 271 272 45;
  M 66 0 3 12 13 2; M 66 1 5 18 19 3; M 66 2 8 18 19 3; M 66 3 13 139 140 23; M 66 4 21 139 140 23; M 66 5 34 60 61 10;
  M 66 6 53 30 31 5; M 66 7 84 66 67 11; M 67 0 3 12 13 2; M 67 1 5 12 13 2; M 67 2 8 97 98 16; M 67 3 14 66 67 11;
  M 67 4 22 66 67 11; M 67 5 34 30 31 5; M 67 6 54 42 43 7; M 67 7 85 36 37 6; M 68 0 3 12 13 2; M 68 1 5 12 13 2;
  M 68 2 9 54 55 9; M 68 3 14 42 43 7; M 68 4 22 36 37 6; M 68 5 35 60 61 10; M 68 6 55 54 55 9; M 68 7 86 24 25 4;
  M 69 0 3 12 13 2; M 69 1 5 12 13 2; M 69 2 9 36 37 6; M 69 3 14 30 31 5; M 69 4 22 61 62 10; M 69 5 35 30 31 5;
  M 69 6 55 61 62 10; M 69 7 87 61 62 10; M 70 0 3 12 13 2; M 70 1 5 49 50 8; M 70 2 9 30 31 5; M 70 3 14 24 25 4;
  M 70 4 22 49 50 8; M 70 5 35 49 50 8; M 70 6 56 49 50 8; M 70 7 88 49 50 8; M 71 0 3 12 13 2; M 71 1 5 43 44 7;
  M 71 2 9 24 25 4; M 71 3 14 43 44 7; M 71 4 23 36 37 6; M 71 5 36 55 56 9; M 71 6 57 30 31 5; M 71 7 90 36 37 6;
  M 72 0 3 37 38 6; M 72 1 5 37 38 6; M 72 2 9 18 19 3; M 72 3 14 37 38 6; M 72 4 23 49 50 8; M 72 5 36 37 38 6;
  M 72 6 57 37 38 6; M 72 7 91 49 50 8; M 73 0 3 37 38 6; M 73 1 6 129 130 21; M 73 2 9 18 19 3; M 73 3 14 68 69 11;
  M 73 4 23 37 38 6; M 73 5 37 55 56 9; M 73 6 58 37 38 6; M 73 7 92 37 38 6; M 74 0 3 31 32 5; M 74 1 6 55 56 9;
  M 74 2 9 31 32 5; M 74 3 15 55 56 9; M 74 4 23 31 32 5; M 74 5 37 37 38 6; M 74 6 59 43 44 7; M 74 7 93 31 32 5;
  M 75 0 3 31 32 5; M 75 1 6 24 25 4; M 75 2 9 31 32 5; M 75 3 15 24 25 4; M 75 4 24 49 50 8; M 75 5 38 80 81 13;
  M 75 6 60 49 50 8; M 75 7 94 56 57 9; M 76 0 3 31 32 5; M 76 1 6 18 19 3; M 76 2 9 31 32 5; M 76 3 15 37 38 6;
  M 76 4 24 37 38 6; M 76 5 38 37 38 6; M 76 6 60 56 57 9; M 76 7 96 49 50 8; M 77 0 3 25 26 4; M 77 1 6 18 19 3;
  M 77 2 9 25 26 4; M 77 3 15 31 32 5; M 77 4 24 31 32 5; M 77 5 38 50 51 8; M 77 6 61 56 57 9; M 77 7 97 37 38 6;
  M 78 0 3 25 26 4; M 78 1 6 18 19 3; M 78 2 9 25 26 4; M 78 3 15 25 26 4; M 78 4 24 25 26 4; M 78 5 39 37 38 6;
  M 78 6 62 43 44 7; M 78 7 98 31 32 5; M 79 0 3 44 45 7; M 79 1 6 18 19 3; M 79 2 9 63 64 10; M 79 3 15 25 26 4;
  M 79 4 25 81 82 13; M 79 5 39 44 45 7; M 79 6 62 63 64 10; M 79 7 99 44 45 7; M 80 0 4 195 196 31; M 80 1 6 12 13 2;
  M 80 2 10 18 19 3; M 80 3 15 101 102 16; M 80 4 25 31 32 5; M 80 5 40 37 38 6; M 80 6 63 44 45 7; M 80 7 100 63 64 10;
  M 81 0 4 69 70 11; M 81 1 6 25 26 4; M 81 2 10 31 32 5; M 81 3 16 69 70 11; M 81 4 25 44 45 7; M 81 5 40 44 45 7;
  M 81 6 64 50 51 8; M 81 7 102 88 89 14; M 82 0 4 31 32 5; M 82 1 6 25 26 4; M 82 2 10 31 32 5; M 82 3 16 31 32 5;
  M 82 4 25 38 39 6; M 82 5 40 89 90 14; M 82 6 65 69 70 11; M 82 7 103 31 32 5; M 83 0 4 31 32 5; M 83 1 6 19 20 3;
  M 83 2 10 25 26 4; M 83 3 16 31 32 5; M 83 4 26 82 83 13; M 83 5 41 44 45 7; M 83 6 65 38 39 6; M 83 7 104 44 45 7;
  M 84 0 4 31 32 5; M 84 1 6 19 20 3; M 84 2 10 25 26 4; M 84 3 16 38 39 6; M 84 4 26 44 45 7; M 84 5 41 51 52 8;
  M 84 6 66 57 58 9; M 84 7 105 38 39 6; M 85 0 4 12 13 2; M 85 1 6 19 20 3; M 85 2 10 25 26 4; M 85 3 16 32 33 5;
  M 85 4 26 38 39 6; M 85 5 42 44 45 7; M 85 6 67 44 45 7; M 85 7 106 32 33 5; M 86 0 4 12 13 2; M 86 1 6 19 20 3;
  M 86 2 10 32 33 5; M 86 3 16 32 33 5; M 86 4 26 32 33 5; M 86 5 42 51 52 8; M 86 6 67 64 65 10; M 86 7 108 44 45 7;
  M 87 0 4 12 13 2; M 87 1 6 19 20 3; M 87 2 10 19 20 3; M 87 3 16 45 46 7; M 87 4 27 57 58 9; M 87 5 43 57 58 9;
  M 87 6 68 51 52 8; M 87 7 109 57 58 9; M 88 0 4 12 13 2; M 88 1 6 19 20 3; M 88 2 10 32 33 5; M 88 3 17 83 84 13;
  M 88 4 27 38 39 6; M 88 5 43 51 52 8; M 88 6 69 38 39 6; M 88 7 110 38 39 6; M 89 0 4 12 13 2; M 89 1 6 32 33 5;
  M 89 2 10 32 33 5; M 89 3 17 38 39 6; M 89 4 27 45 46 7; M 89 5 43 71 72 11; M 89 6 69 97 98 15; M 89 7 111 32 33 5;
  M 90 0 4 19 20 3; M 90 1 6 32 33 5; M 90 2 10 71 72 11; M 90 3 17 32 33 5; M 90 4 27 58 59 9; M 90 5 44 51 52 8;
  M 90 6 70 45 46 7; M 90 7 112 58 59 9; M 91 0 4 19 20 3; M 91 1 6 13 14 2; M 91 2 10 26 27 4; M 91 3 17 32 33 5;
  M 91 4 27 423 424 65; M 91 5 44 52 53 8; M 91 6 71 58 59 9; M 91 7 113 39 40 6; M 92 0 4 19 20 3; M 92 1 6 13 14 2;
  M 92 2 11 84 85 13; M 92 3 17 39 40 6; M 92 4 28 45 46 7; M 92 5 45 97 98 15; M 92 6 72 110 111 17; M 92 7 115 71 72 11;
  M 93 0 4 19 20 3; M 93 1 6 85 86 13; M 93 2 11 45 46 7; M 93 3 17 26 27 4; M 93 4 28 45 46 7; M 93 5 45 52 53 8;
  M 93 6 72 39 40 6; M 93 7 116 32 33 5; M 94 0 4 19 20 3; M 94 1 7 779 780 119; M 94 2 11 32 33 5; M 94 3 17 72 73 11;
  M 94 4 28 39 40 6; M 94 5 45 72 73 11; M 94 6 73 52 53 8; M 94 7 117 52 53 8; M 95 0 4 19 20 3; M 95 1 7 45 46 7;
  M 95 2 11 19 20 3; M 95 3 18 45 46 7; M 95 4 28 59 60 9; M 95 5 46 52 53 8; M 95 6 74 45 46 7; M 95 7 118 39 40 6;
  M 96 0 4 19 20 3; M 96 1 7 32 33 5; M 96 2 11 32 33 5; M 96 3 18 32 33 5; M 96 4 29 65 66 10; M 96 5 46 46 47 7;
  M 96 6 74 46 47 7; M 96 7 119 46 47 7; M 97 0 4 19 20 3; M 97 1 7 19 20 3; M 97 2 11 26 27 4; M 97 3 18 39 40 6;
  M 97 4 29 39 40 6; M 97 5 47 65 66 10; M 97 6 75 59 60 9; M 97 7 121 32 33 5; M 98 0 4 13 14 2; M 98 1 7 19 20 3;
  M 98 2 11 26 27 4; M 98 3 18 26 27 4; M 98 4 29 46 47 7; M 98 5 47 59 60 9; M 98 6 76 52 53 8; M 98 7 122 52 53 8;
  M 99 0 4 13 14 2; M 99 1 7 19 20 3; M 99 2 11 26 27 4; M 99 3 18 33 34 5; M 99 4 29 53 54 8; M 99 5 47 53 54 8;
  M 99 6 76 53 54 8; M 99 7 123 46 47 7; M 100 0 4 13 14 2; M 100 1 7 19 20 3; M 100 2 11 33 34 5; M 100 3 18 33 34 5;
  M 100 4 30 39 40 6; M 100 5 48 59 60 9; M 100 6 77 66 67 10; M 100 7 124 46 47 7; M 101 0 4 13 14 2; M 101 1 7 19 20 3;
  M 101 2 11 33 34 5; M 101 3 18 73 74 11; M 101 4 30 46 47 7; M 101 5 48 53 54 8; M 101 6 78 59 60 9; M 101 7 125 53 54 8;
  M 102 0 4 13 14 2; M 102 1 7 26 27 4; M 102 2 11 20 21 3; M 102 3 19 186 187 28; M 102 4 30 33 34 5; M 102 5 49 86 87 13;
  M 102 6 78 387 388 58; M 102 7 126 40 41 6; M 103 0 4 13 14 2; M 103 1 7 26 27 4; M 103 2 11 20 21 3; M 103 3 19 46 47 7;
  M 103 4 30 40 41 6; M 103 5 49 53 54 8; M 103 6 79 60 61 9; M 103 7 128 66 67 10; M 104 0 4 13 14 2; M 104 1 7 26 27 4;
  M 104 2 11 67 68 10; M 104 3 19 46 47 7; M 104 4 31 113 114 17; M 104 5 49 67 68 10; M 104 6 80 53 54 8; M 104 7 129 46 47 7;
  M 105 0 4 13 14 2; M 105 1 7 26 27 4; M 105 2 12 46 47 7; M 105 3 19 33 34 5; M 105 4 31 46 47 7; M 105 5 50 53 54 8;
  M 105 6 81 46 47 7; M 106 0 4 20 21 3; M 106 1 7 20 21 3; M 106 2 12 26 27 4; M 106 3 19 40 41 6; M 106 4 31 40 41 6;
  M 106 5 50 47 48 7; M 106 6 81 67 68 10; M 107 0 4 20 21 3; M 107 1 7 20 21 3; M 107 2 12 26 27 4; M 107 3 19 40 41 6;
  M 107 4 31 47 48 7; M 107 5 51 53 54 8; M 107 6 82 60 61 9; M 108 0 4 20 21 3; M 108 1 7 20 21 3; M 108 2 12 33 34 5;
  M 108 3 19 47 48 7; M 108 4 31 358 359 53; M 108 5 51 67 68 10; M 108 6 83 87 88 13; M 109 0 4 20 21 3; M 109 1 7 20 21 3;
  M 109 2 12 33 34 5; M 109 3 19 115 116 17; M 109 4 32 60 61 9; M 109 5 51 115 116 17; M 109 6 83 54 55 8; M 110 0 4 20 21 3;
  M 110 1 7 20 21 3; M 110 2 12 33 34 5; M 110 3 20 33 34 5; M 110 4 32 47 48 7; M 110 5 52 67 68 10; M 110 6 84 47 48 7;
  M 111 0 4 20 21 3; M 111 1 7 27 28 4; M 111 2 12 40 41 6; M 111 3 20 33 34 5; M 111 4 32 54 55 8; M 111 5 52 61 62 9;
  M 111 6 85 67 68 10; M 112 0 4 27 28 4; M 112 1 7 27 28 4; M 112 2 12 27 28 4; M 112 3 20 40 41 6; M 112 4 32 34 35 5;
  M 112 5 53 74 75 11; M 112 6 85 68 69 10; M 113 0 4 27 28 4; M 113 1 7 27 28 4; M 113 2 12 27 28 4; M 113 3 20 47 48 7;
  M 113 4 33 40 41 6; M 113 5 53 54 55 8; M 113 6 86 54 55 8; M 114 0 4 34 35 5; M 114 1 7 34 35 5; M 114 2 12 34 35 5;
  M 114 3 20 27 28 4; M 114 4 33 47 48 7; M 114 5 53 157 158 23; M 114 6 87 47 48 7; M 115 0 4 34 35 5; M 115 1 7 41 42 6;
  M 115 2 12 34 35 5; M 115 3 20 34 35 5; M 115 4 33 61 62 9; M 115 5 54 54 55 8; M 115 6 87 82 83 12; M 116 0 4 41 42 6;
  M 116 1 7 48 49 7; M 116 2 12 41 42 6; M 116 3 20 41 42 6; M 116 4 33 41 42 6; M 116 5 54 75 76 11; M 116 6 88 68 69 10;
  M 117 0 4 48 49 7; M 117 1 8 54 55 8; M 117 2 12 158 159 23; M 117 3 21 54 55 8; M 117 4 34 54 55 8; M 117 5 55 54 55 8;
  M 117 6 89 61 62 9; M 118 0 4 55 56 8; M 118 1 8 61 62 9; M 118 2 13 61 62 9; M 118 3 21 61 62 9; M 118 4 34 61 62 9;
  M 118 5 55 75 76 11; M 118 6 89 117 118 17; M 119 0 5 199 200 29; M 119 1 8 68 69 10; M 119 2 13 68 69 10; M 119 3 21 68 69 10;
  M 119 4 34 41 42 6; M 119 5 55 62 63 9; M 119 6 90 89 90 13; M 119 7 146 55 56 8; M 120 0 5 75 76 11; M 120 1 8 75 76 11;
  M 120 2 13 75 76 11; M 120 3 21 34 35 5; M 120 4 34 55 56 8; M 120 5 56 75 76 11; M 120 6 91 75 76 11; M 120 7 148 75 76 11;
  M 121 0 5 89 90 13; M 121 1 8 20 21 3; M 121 2 13 27 28 4; M 121 3 21 41 42 6; M 121 4 34 83 84 12; M 121 5 56 55 56 8;
  M 121 6 92 255 256 37; M 121 7 149 89 90 13; M 122 0 5 103 104 15; M 122 1 8 20 21 3; M 122 2 13 27 28 4; M 122 3 21 48 49 7;
  M 122 4 35 103 104 15; M 122 5 57 103 104 15; M 122 6 92 62 63 9; M 122 7 150 41 42 6; M 123 0 5 13 14 2; M 123 1 8 20 21 3;
  M 123 2 13 34 35 5; M 123 3 21 69 70 10; M 123 4 35 48 49 7; M 123 5 57 55 56 8; M 123 6 93 124 125 18; M 123 7 151 55 56 8;
  M 124 0 5 13 14 2; M 124 1 8 20 21 3; M 124 2 13 34 35 5; M 124 3 21 125 126 18; M 124 4 35 69 70 10; M 124 5 57 118 119 17;
  M 124 6 94 152 153 22; M 124 7 152 76 77 11; M 125 0 5 13 14 2; M 125 1 8 27 28 4; M 125 2 13 41 42 6; M 125 3 22 208 209 30;
  M 125 4 35 132 133 19; M 125 5 58 48 49 7; M 125 6 94 97 98 14; M 125 7 153 132 133 19; M 126 0 5 13 14 2; M 126 1 8 27 28 4;
  M 126 2 13 55 56 8; M 126 3 22 34 35 5; M 126 4 36 41 42 6; M 126 5 58 104 105 15; M 126 6 95 69 70 10; M 126 7 155 313 314 45;
  M 127 0 5 20 21 3; M 127 1 8 27 28 4; M 127 2 13 76 77 11; M 127 3 22 41 42 6; M 127 4 36 55 56 8; M 127 5 59 48 49 7;
  M 127 6 96 48 49 7; M 127 7 156 48 49 7; M 128 0 5 7 7 1; M 128 1 8 7 7 1; M 128 2 13 7 7 1; M 128 3 22 7 7 1;
  M 128 4 36 7 7 1; M 128 5 59 7 7 1; M 128 6 96 7 7 1; M 128 7 157 7 7 1; M 129 0 5 42 43 6; M 129 1 8 28 29 4;
  M 129 2 13 28 29 4; M 129 3 22 42 43 6; M 129 4 36 42 43 6; M 129 5 59 49 50 7; M 129 6 97 98 99 14; M 130 0 5 35 36 5;
  M 130 1 8 28 29 4; M 130 2 13 316 317 45; M 130 3 22 35 36 5; M 130 4 37 259 260 37; M 130 5 60 112 113 16; M 130 6 98 182 183 26;
  M 131 0 5 35 36 5; M 131 1 8 21 22 3; M 131 2 14 147 148 21; M 131 3 22 211 212 30; M 131 4 37 91 92 13; M 131 5 60 56 57 8;
  M 131 6 98 211 212 30; M 132 0 5 28 29 4; M 132 1 8 21 22 3; M 132 2 14 84 85 12; M 132 3 23 316 317 45; M 132 4 37 56 57 8;
  M 132 5 61 133 134 19; M 132 6 99 63 64 9; M 133 0 5 28 29 4; M 133 1 8 21 22 3; M 133 2 14 63 64 9; M 133 3 23 84 85 12;
  M 133 4 37 134 135 19; M 133 5 61 63 64 9; M 133 6 100 98 99 14; M 134 0 5 28 29 4; M 134 1 8 21 22 3; M 134 2 14 49 50 7;
  M 134 3 23 56 57 8; M 134 4 37 113 114 16; M 134 5 61 113 114 16; M 134 6 100 113 114 16; M 135 0 5 21 22 3; M 135 1 8 21 22 3;
  M 135 2 14 42 43 6; M 135 3 23 42 43 6; M 135 4 38 70 71 10; M 135 5 62 63 64 9; M 135 6 101 99 100 14; M 136 0 5 21 22 3;
  M 136 1 8 85 86 12; M 136 2 14 35 36 5; M 136 3 23 35 36 5; M 136 4 38 49 50 7; M 136 5 62 85 86 12; M 136 6 102 63 64 9;
  M 137 0 5 21 22 3; M 137 1 8 78 79 11; M 137 2 14 28 29 4; M 137 3 23 78 79 11; M 137 4 38 78 79 11; M 137 5 63 361 362 51;
  M 137 6 102 78 79 11; M 138 0 5 21 22 3; M 138 1 8 71 72 10; M 138 2 14 28 29 4; M 138 3 23 71 72 10; M 138 4 38 71 72 10;
  M 138 5 63 85 86 12; M 138 6 103 85 86 12; M 139 0 5 21 22 3; M 139 1 8 64 65 9; M 139 2 14 64 65 9; M 139 3 23 64 65 9;
  M 139 4 39 56 57 8; M 139 5 63 64 65 9; M 139 6 104 99 100 14; M 140 0 5 21 22 3; M 140 1 9 384 385 54; M 140 2 14 57 58 8;
  M 140 3 24 106 107 15; M 140 4 39 85 86 12; M 140 5 64 92 93 13; M 140 6 104 114 115 16; M 141 0 5 14 15 2; M 141 1 9 49 50 7;
  M 141 2 14 57 58 8; M 141 3 24 42 43 6; M 141 4 39 64 65 9; M 141 5 64 64 65 9; M 141 6 105 71 72 10; M 142 0 5 14 15 2;
  M 142 1 9 42 43 6; M 142 2 14 50 51 7; M 142 3 24 35 36 5; M 142 4 39 57 58 8; M 142 5 64 193 194 27; M 142 6 106 85 86 12;
  M 143 0 5 14 15 2; M 143 1 9 35 36 5; M 143 2 14 50 51 7; M 143 3 24 57 58 8; M 143 4 39 93 94 13; M 143 5 65 71 72 10;
  M 143 6 106 93 94 13; M 144 0 5 14 15 2; M 144 1 9 35 36 5; M 144 2 15 336 337 47; M 144 3 24 50 51 7; M 144 4 40 71 72 10;
  M 144 5 65 86 87 12; M 144 6 107 93 94 13; M 145 0 5 14 15 2; M 145 1 9 28 29 4; M 145 2 15 35 36 5; M 145 3 24 43 44 6;
  M 145 4 40 57 58 8; M 145 5 66 78 79 11; M 145 6 108 71 72 10; M 146 0 5 14 15 2; M 146 1 9 28 29 4; M 146 2 15 35 36 5;
  M 146 3 24 43 44 6; M 146 4 40 50 51 7; M 146 5 66 57 58 8; M 146 6 108 79 80 11; M 147 0 5 43 44 6; M 147 1 9 28 29 4;
  M 147 2 15 28 29 4; M 147 3 24 115 116 16; M 147 4 40 79 80 11; M 147 5 66 115 116 16; M 147 6 109 79 80 11; M 148 0 5 36 37 5;
  M 148 1 9 21 22 3; M 148 2 15 28 29 4; M 148 3 25 64 65 9; M 148 4 41 100 101 14; M 148 5 67 64 65 9; M 148 6 110 93 94 13;
  M 149 0 5 36 37 5; M 149 1 9 21 22 3; M 149 2 15 43 44 6; M 149 3 25 57 58 8; M 149 4 41 57 58 8; M 149 5 67 72 73 10;
  M 149 6 110 101 102 14; M 150 0 5 36 37 5; M 150 1 9 21 22 3; M 150 2 15 43 44 6; M 150 3 25 50 51 7; M 150 4 41 72 73 10;
  M 150 5 68 93 94 13; M 150 6 111 72 73 10; M 151 0 5 36 37 5; M 151 1 9 36 37 5; M 151 2 15 36 37 5; M 151 3 25 43 44 6;
  M 151 4 41 65 66 9; M 151 5 68 72 73 10; M 151 6 112 86 87 12; M 152 0 5 36 37 5; M 152 1 9 36 37 5; M 152 2 15 36 37 5;
  M 152 3 25 43 44 6; M 152 4 41 181 182 25; M 152 5 68 94 95 13; M 152 6 112 152 153 21; M 153 0 5 29 30 4; M 153 1 9 29 30 4;
  M 153 2 15 36 37 5; M 153 3 25 36 37 5; M 153 4 42 50 51 7; M 153 5 69 79 80 11; M 153 6 113 94 95 13; M 154 0 5 29 30 4;
  M 154 1 9 29 30 4; M 154 2 15 36 37 5; M 154 3 25 58 59 8; M 154 4 42 43 44 6; M 154 5 69 65 66 9; M 154 6 114 79 80 11;
  M 155 0 5 29 30 4; M 155 1 9 29 30 4; M 155 2 15 29 30 4; M 155 3 25 80 81 11; M 155 4 42 58 59 8; M 155 5 69 80 81 11;
  M 155 6 114 80 81 11; M 156 0 5 29 30 4; M 156 1 9 29 30 4; M 156 2 15 29 30 4; M 156 3 26 50 51 7; M 156 4 42 80 81 11;
  M 156 5 70 65 66 9; M 156 6 115 87 88 12; M 157 0 5 29 30 4; M 157 1 9 29 30 4; M 157 2 15 51 52 7; M 157 3 26 43 44 6;
  M 157 4 43 72 73 10; M 157 5 70 80 81 11; M 157 6 116 94 95 13; M 158 0 5 51 52 7; M 158 1 9 29 30 4; M 158 2 16 167 168 23;
  M 158 3 26 43 44 6; M 158 4 43 65 66 9; M 158 5 71 94 95 13; M 158 6 116 73 74 10; M 159 0 5 51 52 7; M 159 1 9 29 30 4;
  M 159 2 16 43 44 6; M 159 3 26 36 37 5; M 159 4 43 58 59 8; M 159 5 71 58 59 8; M 159 6 117 80 81 11; M 160 0 5 95 96 13;
  M 160 1 9 29 30 4; M 160 2 16 43 44 6; M 160 3 26 51 52 7; M 160 4 43 51 52 7; M 160 5 71 95 96 13; M 160 6 118 87 88 12;
  M 161 0 5 337 338 46; M 161 1 9 51 52 7; M 161 2 16 43 44 6; M 161 3 26 51 52 7; M 161 4 43 183 184 25; M 161 5 72 80 81 11;
  M 161 6 118 227 228 31; M 162 0 6 168 169 23].
Close Scope N_scope.
Lemma mtable4_ok : forallb mcheck mtable4 = true. Proof. vm_compute. reflexivity. Qed.
(** The same values as an array of arrays, for fast access. *)
Definition rows4 : list (list (option N)) := Eval vm_compute in map (fun m => map (mlookup mtable4 (N.of_nat m)) (seq 0 9)) (seq 0 163).
Lemma rows4_ok : rows4 = map (fun m => map (mlookup mtable4 (N.of_nat m)) (seq 0 9)) (seq 0 163). Proof. vm_compute. reflexivity. Qed.
Definition tabled4 (T : thresholds) : thresholds := {|
  th_max := fun m i => match nth i (nth (N.to_nat m) rows4 []) None with Some v => v | None => th_max T m i end; th_trig := th_trig T |}.
Lemma nth_map_seq {A} (f : nat -> A) k i d : nth i (map f (seq 0 k)) d = if i <? k then f i else d.
Proof.
  destruct (Nat.ltb_spec i k) as [H|H]; [|apply nth_overflow; rewrite map_length, seq_length; auto].
  rewrite (nth_indep _ d (f 0)) by (rewrite map_length, seq_length; auto). rewrite map_nth, seq_nth by auto. reflexivity.
Qed.
Lemma tabled4_eq T : th_real T -> tabled4 T = T.
Proof.
  intros H. pose proof (with_table_eq mtable4 [] T H mtable4_ok eq_refl) as W. unfold tabled4. destruct T as [tm tt]. cbn [th_max th_trig] in *. f_equal.
  extensionality m; extensionality i. rewrite rows4_ok, nth_map_seq. destruct (N.to_nat m <? 163) eqn:E; [|destruct i; reflexivity].
  rewrite nth_map_seq. destruct (i <? 9) eqn:E2; [|reflexivity]. rewrite N2Nat.id. exact (f_equal (fun T => th_max T m i) W).
Qed.
