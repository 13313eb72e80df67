(** * Table3: certified values of MAXSZ(m,i) for a longer run (generated by tools/gen_table3.py; the kernel checks every entry).
    MAXSZ(m,0) does not decrease from 9 on, so equal values at the ends of a range fix the value on it. *)
From Coq Require Import Reals FunctionalExtensionality.
From Verif Require Import Base Thresholds MunroTime.
Local Notation M a b c d e f := (Build_mentry a b c d e f).
Open Scope N_scope.
Definition mtable3 : list mentry := [
  M 1000 1 35 149 150 15; M 1000 2 63 129 130 13; M 1000 3 112 269 270 27; M 1000 4 200 209 210 21; M 1000 5 356 398 399 40; M 1000 6 633 418 419 42;
  M 1000 7 1125 428 429 43; M 1007 1 35 339 340 34; M 1007 2 63 309 310 31; M 1007 3 113 199 200 20; M 1007 4 201 339 340 34; M 1007 5 358 319 320 32;
  M 1028 1 36 120 121 12; M 1049 1 37 220 221 22; M 1049 2 65 1154 1155 115; M 1071 1 37 161 162 16; M 1093 1 38 80 81 8; M 1093 2 68 191 192 19;
  M 1093 3 121 161 162 16; M 1115 1 38 91 92 9; M 1138 1 39 101 102 10; M 1138 2 70 172 173 17; M 1161 1 40 111 112 11; M 1184 1 40 112 113 11;
  M 1184 2 72 163 164 16; M 1184 3 129 204 205 20; M 1184 4 231 245 246 24; M 1208 1 41 122 123 12; M 1232 1 41 82 83 8; M 1232 2 74 154 155 15;
  M 1256 1 42 92 93 9; M 1281 1 43 92 93 9; M 1281 2 77 154 155 15; M 1281 3 138 206 207 20; M 1306 1 43 93 94 9; M 1331 1 44 103 104 10;
  M 1331 2 79 145 146 14; M 1357 1 45 280 281 27; M 1383 1 45 104 105 10; M 1383 2 82 166 167 16; M 1383 3 147 229 230 22; M 1383 4 265 333 334 32;
  M 1383 5 476 448 449 43; M 1383 6 856 521 522 50; M 1409 1 46 83 84 8; M 1436 1 46 388 389 37; M 1436 2 84 157 158 15; M 1463 1 47 126 127 12;
  M 1490 1 48 147 148 14; M 1490 2 87 231 232 22; M 1490 3 156 274 275 26; M 1518 1 49 464 465 44; M 1546 1 49 127 128 12; M 1546 2 89 148 149 14;
  M 1574 1 50 95 96 9; M 1603 1 51 180 181 17; M 1603 2 92 159 160 15; M 1603 3 166 234 235 22; M 1603 4 301 361 362 34; M 1632 1 51 128 129 12;
  M 1662 1 52 128 129 12; M 1662 2 94 567 568 53; M 1692 1 53 128 129 12; M 1722 1 53 677 678 63; M 1722 2 97 161 162 15; M 1722 3 176 806 807 75;
  M 1753 1 54 129 130 12; M 1784 1 55 129 130 12; M 1784 2 100 194 195 18; M 1815 1 56 129 130 12; M 1847 1 56 141 142 13; M 1847 2 103 173 174 16;
  M 1847 3 187 260 261 24; M 1847 4 340 390 391 36; M 1847 5 617 575 576 53; M 1879 1 57 141 142 13; M 1912 1 58 141 142 13; M 1912 2 106 228 229 21;
  M 1945 1 59 152 153 14; M 1978 1 60 218 219 20; M 1978 2 109 218 219 20; M 1978 3 198 328 329 30; M 2012 1 60 252 253 23; M 2046 1 61 263 264 24;
  M 2046 2 112 208 209 19; M 2081 1 62 176 177 16; M 2116 1 63 165 166 15; M 2116 2 115 176 177 16; M 2116 3 210 430 431 39; M 2116 4 383 452 453 41;
  M 2152 1 64 298 299 27; M 2188 1 64 122 123 11; M 2188 2 118 188 189 17; M 2224 1 65 122 123 11; M 2261 1 66 178 179 16; M 2261 2 121 189 190 17;
  M 2261 3 222 378 379 34; M 2298 1 67 167 168 15; M 2336 1 68 167 168 15; M 2336 2 124 246 247 22; M 2374 1 69 156 157 14; M 2413 1 69 191 192 17;
  M 2413 2 128 235 236 21; M 2413 3 234 348 349 31; M 2413 4 429 550 551 49; M 2413 5 786 651 652 58; M 2413 6 1439 775 776 69; M 2413 7 2635 764 765 68].
Definition rtable3 : list (mentry * mentry) := [
  (M 1000 0 20 49 50 5, M 1060 0 20 211 212 21); (M 1061 0 21 391 392 39, M 1132 0 21 842 843 83); (M 1133 0 22 273 274 27, M 1204 0 22 307 308 30);
  (M 1205 0 23 173 174 17, M 1277 0 23 227 228 22); (M 1278 0 24 1258 1259 122, M 1352 0 24 2413 2414 232); (M 1353 0 25 592 593 57, M 1427 0 25 241 242 23);
  (M 1428 0 26 261 262 25, M 1503 0 26 306 307 29); (M 1504 0 27 1255 1256 119, M 1580 0 27 85 86 8); (M 1581 0 28 796 797 75, M 1658 0 28 385 386 36);
  (M 1659 0 29 598 599 56, M 1737 0 29 226 227 21); (M 1738 0 30 591 592 55, M 1817 0 30 877 878 81); (M 1818 0 31 378 379 35, M 1897 0 31 98 99 9);
  (M 1898 0 32 500 501 46, M 1978 0 32 646 647 59); (M 1979 0 33 448 449 41, M 2060 0 33 1310 1311 119); (M 2061 0 34 1034 1035 94, M 2142 0 34 343 344 31);
  (M 2143 0 35 674 675 61, M 2225 0 35 467 468 42); (M 2226 0 36 922 923 83, M 2309 0 36 324 325 29); (M 2310 0 37 256 257 23, M 2394 0 37 449 450 40);
  (M 2395 0 38 246 247 22, M 2452 0 38 101 102 9)].
Definition rcheck (r : mentry * mentry) : bool := let (a, b) := r in
  mcheck a && mcheck b && (me_i a =? 0)%nat && (me_i b =? 0)%nat && (me_v a =? me_v b) && (9 <=? me_m a) && (me_m a <=? me_m b).
Fixpoint rlookup (l : list (mentry * mentry)) (m : N) : option N :=
  match l with
  | [] => None
  | (a, b) :: t => if (me_m a <=? m) && (m <=? me_m b) then Some (me_v a) else rlookup t m
  end.
Definition with_ranges (l : list (mentry * mentry)) (T : thresholds) : thresholds := {|
  th_max := fun m i => match i with O => match rlookup l m with Some v => v | None => th_max T m i end | _ => th_max T m i end;
  th_trig := th_trig T |}.
Close Scope N_scope.
Lemma with_ranges_eq l T : th_real T -> forallb rcheck l = true -> with_ranges l T = T.
Proof.
  intros HT Hc. destruct T as [tm tt] eqn:ET. rewrite <- ET in *. unfold with_ranges. transitivity {| th_max := th_max T; th_trig := th_trig T |}; [|subst; reflexivity]. f_equal.
  extensionality m; extensionality i. destruct i as [|i]; [|reflexivity]. induction l as [|[a b] l IH]; cbn [rlookup]; [reflexivity|].
  cbn [forallb] in Hc. apply andb_true_iff in Hc. destruct Hc as [Hc1 Hc2]. specialize (IH Hc2).
  destruct ((me_m a <=? m)%N && (m <=? me_m b)%N)%bool eqn:Er; [|exact IH].
  apply andb_true_iff in Er. destruct Er as [L1 L2]. apply N.leb_le in L1, L2.
  unfold rcheck in Hc1. rewrite !andb_true_iff in Hc1. destruct Hc1 as ((((((A1 & A2) & A3) & A4) & A5) & A6) & A7).
  apply Nat.eqb_eq in A3, A4. apply N.eqb_eq in A5. apply N.leb_le in A6, A7.
  pose proof (cert_max_ok T _ _ _ _ _ _ HT A1) as Va. pose proof (cert_max_ok T _ _ _ _ _ _ HT A2) as Vb. rewrite A3 in Va. rewrite A4 in Vb.
  pose proof (th_max0_mono T (me_m a) m HT ltac:(lia)). pose proof (th_max0_mono T m (me_m b) HT ltac:(lia)). lia.
Qed.
Lemma mtable3_ok : forallb mcheck mtable3 = true. Proof. vm_compute. reflexivity. Qed.
Lemma rtable3_ok : forallb rcheck rtable3 = true. Proof. vm_compute. reflexivity. Qed.
Definition tabled3 (T : thresholds) : thresholds := with_table mtable3 [] (with_ranges rtable3 T).
Lemma tabled3_eq T : th_real T -> tabled3 T = T.
Proof. intros H. unfold tabled3. rewrite (with_ranges_eq rtable3 T H rtable3_ok). apply with_table_eq; auto using mtable3_ok. Qed.
