(** * The example that solves one file: the property theorems *)
From Verif Require Import Spec Spec_savings PyBase M_util M_dist M_psavings M_text M_io Spec_io Spec_coord Spec_header P_io2 T_coord M_single P_single.
From Coq Require Import ZifyBool ZifyNat Lia Arith List Permutation.
Import ListNotations.
Local Open Scope Z_scope.

(** C128: from a file with coordinates and demands in the order of the ids to the printed routes.  Every customer of the
    file is on one route exactly, every route leaves the depot and comes back, and the demands that the file gives for
    the customers of a route do not exceed the capacity it gives (the node with the id k is called k-1). *)
Theorem C128_routes_partial : forall parse_float geo other q eps header n ewt c lines points lines' loads, 0 < q -> 0 <= eps ->
  header_of n c ewt header -> planar ewt -> (2 <= n)%nat ->
  Forall2 (point_line parse_float) lines points -> in_order n points ->
  Forall2 (load_line parse_float) lines' loads -> in_order n loads ->
  c = 0 \/ (forall id v, In (id, v) loads -> id <> 1 -> v <= q * c + eps) ->
  exists rs, single_solve parse_float geo other q eps (tsplib_file header lines lines') = Some (map (fun r => 0%nat :: r ++ [0%nat]) rs) /\
  covers n rs /\ Forall (fun r => r <> []) rs /\
  forall d, (forall id v, In (id, v) loads -> d (Z.to_nat (id - 1)) = v) -> Forall (fun r => c <> 0 -> demand d r <= q * c + eps) rs.
Proof. exact single_header. Qed.
Print Assumptions C128_routes_partial.

(** The file that comes with the example, examples/E-n51-k5.vrp *)
Definition E_n51_k5_header : list text := [str "NAME : E-n51-k5"; str "COMMENT : (Christophides and Eilon, Min no of trucks: 5, Optimal value: 521)"; str "TYPE : CVRP"; str "BEST_KNOWN: 521"; str "DIMENSION : 51"; str "EDGE_WEIGHT_TYPE : EUC_2D"; str "CAPACITY : 160"].
Definition E_n51_k5_points : list text := [str "1 30 40"; str "2 37 52"; str "3 49 49"; str "4 52 64"; str "5 20 26"; str "6 40 30"; str "7 21 47"; str "8 17 63"; str "9 31 62"; str "10 52 33"; str "11 51 21"; str "12 42 41"; str "13 31 32"; str "14 5 25"; str "15 12 42"; str "16 36 16"; str "17 52 41"; str "18 27 23"; str "19 17 33"; str "20 13 13"; str "21 57 58"; str "22 62 42"; str "23 42 57"; str "24 16 57"; str "25 8 52"; str "26 7 38"; str "27 27 68"; str "28 30 48"; str "29 43 67"; str "30 58 48"; str "31 58 27"; str "32 37 69"; str "33 38 46"; str "34 46 10"; str "35 61 33"; str "36 62 63"; str "37 63 69"; str "38 32 22"; str "39 45 35"; str "40 59 15"; str "41 5 6"; str "42 10 17"; str "43 21 10"; str "44 5 64"; str "45 30 15"; str "46 39 10"; str "47 32 39"; str "48 25 32"; str "49 25 55"; str "50 48 28"; str "51 56 37"].
Definition E_n51_k5_loads : list text := [str "1 0"; str "2 7"; str "3 30"; str "4 16"; str "5 9"; str "6 21"; str "7 15"; str "8 19"; str "9 23"; str "10 11"; str "11 5"; str "12 19"; str "13 29"; str "14 23"; str "15 21"; str "16 10"; str "17 15"; str "18 3"; str "19 41"; str "20 9"; str "21 28"; str "22 8"; str "23 8"; str "24 16"; str "25 10"; str "26 28"; str "27 7"; str "28 15"; str "29 14"; str "30 6"; str "31 19"; str "32 11"; str "33 12"; str "34 23"; str "35 26"; str "36 17"; str "37 6"; str "38 9"; str "39 15"; str "40 14"; str "41 7"; str "42 27"; str "43 13"; str "44 11"; str "45 16"; str "46 10"; str "47 5"; str "48 25"; str "49 17"; str "50 18"; str "51 10"].
Definition E_n51_k5 : text := str "NAME : E-n51-k5
COMMENT : (Christophides and Eilon, Min no of trucks: 5, Optimal value: 521)
TYPE : CVRP
BEST_KNOWN: 521
DIMENSION : 51
EDGE_WEIGHT_TYPE : EUC_2D
CAPACITY : 160
NODE_COORD_SECTION
1 30 40
2 37 52
3 49 49
4 52 64
5 20 26
6 40 30
7 21 47
8 17 63
9 31 62
10 52 33
11 51 21
12 42 41
13 31 32
14 5 25
15 12 42
16 36 16
17 52 41
18 27 23
19 17 33
20 13 13
21 57 58
22 62 42
23 42 57
24 16 57
25 8 52
26 7 38
27 27 68
28 30 48
29 43 67
30 58 48
31 58 27
32 37 69
33 38 46
34 46 10
35 61 33
36 62 63
37 63 69
38 32 22
39 45 35
40 59 15
41 5 6
42 10 17
43 21 10
44 5 64
45 30 15
46 39 10
47 32 39
48 25 32
49 25 55
50 48 28
51 56 37
DEMAND_SECTION
1 0
2 7
3 30
4 16
5 9
6 21
7 15
8 19
9 23
10 11
11 5
12 19
13 29
14 23
15 21
16 10
17 15
18 3
19 41
20 9
21 28
22 8
23 8
24 16
25 10
26 28
27 7
28 15
29 14
30 6
31 19
32 11
33 12
34 23
35 26
36 17
37 6
38 9
39 15
40 14
41 7
42 27
43 13
44 11
45 16
46 10
47 5
48 25
49 17
50 18
51 10
DEPOT_SECTION
 1
 -1
EOF
".
Definition E_n51_k5_places : list (Z * (Z * Z)) := [(1, (30, 40)); (2, (37, 52)); (3, (49, 49)); (4, (52, 64)); (5, (20, 26)); (6, (40, 30)); (7, (21, 47)); (8, (17, 63)); (9, (31, 62)); (10, (52, 33)); (11, (51, 21)); (12, (42, 41)); (13, (31, 32)); (14, (5, 25)); (15, (12, 42)); (16, (36, 16)); (17, (52, 41)); (18, (27, 23)); (19, (17, 33)); (20, (13, 13)); (21, (57, 58)); (22, (62, 42)); (23, (42, 57)); (24, (16, 57)); (25, (8, 52)); (26, (7, 38)); (27, (27, 68)); (28, (30, 48)); (29, (43, 67)); (30, (58, 48)); (31, (58, 27)); (32, (37, 69)); (33, (38, 46)); (34, (46, 10)); (35, (61, 33)); (36, (62, 63)); (37, (63, 69)); (38, (32, 22)); (39, (45, 35)); (40, (59, 15)); (41, (5, 6)); (42, (10, 17)); (43, (21, 10)); (44, (5, 64)); (45, (30, 15)); (46, (39, 10)); (47, (32, 39)); (48, (25, 32)); (49, (25, 55)); (50, (48, 28)); (51, (56, 37))].
Definition E_n51_k5_demands : list (Z * Z) := [(1, 0); (2, 7); (3, 30); (4, 16); (5, 9); (6, 21); (7, 15); (8, 19); (9, 23); (10, 11); (11, 5); (12, 19); (13, 29); (14, 23); (15, 21); (16, 10); (17, 15); (18, 3); (19, 41); (20, 9); (21, 28); (22, 8); (23, 8); (24, 16); (25, 10); (26, 28); (27, 7); (28, 15); (29, 14); (30, 6); (31, 19); (32, 11); (33, 12); (34, 23); (35, 26); (36, 17); (37, 6); (38, 9); (39, 15); (40, 14); (41, 7); (42, 27); (43, 13); (44, 11); (45, 16); (46, 10); (47, 5); (48, 25); (49, 17); (50, 18); (51, 10)].
Example C128_case : E_n51_k5 = tsplib_file E_n51_k5_header E_n51_k5_points E_n51_k5_loads /\
  header_of 51 160 (str "EUC_2D") E_n51_k5_header /\ planar (str "EUC_2D") /\
  Forall2 (point_line parse_int) E_n51_k5_points E_n51_k5_places /\ in_order 51 E_n51_k5_places /\
  Forall2 (load_line parse_int) E_n51_k5_loads E_n51_k5_demands /\ in_order 51 E_n51_k5_demands /\
  (forall id v, In (id, v) E_n51_k5_demands -> id <> 1 -> v <= 1 * 160 + 0).
Proof.
  split; [vm_compute; reflexivity|]. split.
  - exists [Remark; Remark; Kind; Remark; Dimension 51; WeightType (str "EUC_2D"); Capacity 160]. split; [|cbn; apply perm_skip, perm_swap].
    repeat (apply Forall2_cons; [split; [apply one_line_str; reflexivity|do 2 eexists; split; [vm_compute; reflexivity|]]|]); try apply Forall2_nil;
      cbn beta iota; try (split; vm_compute; reflexivity);
      (split; [vm_compute; discriminate|repeat (apply Forall_cons; [vm_compute; reflexivity|]); apply Forall_nil]).
  - split; [cbn; tauto|]. split; [|split; [reflexivity|split; [|split; [reflexivity|]]]].
    + repeat (apply Forall2_cons; [split; [|repeat eexists; vm_compute; reflexivity]|]); try apply Forall2_nil;
        repeat (apply Forall_cons; [repeat split; try discriminate; left; vm_compute; repeat constructor|]); apply Forall_nil.
    + repeat (apply Forall2_cons; [split; [|repeat eexists; vm_compute; reflexivity]|]); try apply Forall2_nil;
        repeat (apply Forall_cons; [repeat split; try discriminate; left; vm_compute; repeat constructor|]); apply Forall_nil.
    + intros id v H _. assert (E : forallb (fun e => snd e <=? 160) E_n51_k5_demands = true) by (vm_compute; reflexivity).
      rewrite forallb_forall in E. specialize (E _ H). cbn in E. lia.
Qed.
Example C128_run : single_solve parse_int (fun z => z) (fun _ _ _ => 0) 1 0 E_n51_k5 =
  Some [[0; 8; 26; 31; 28; 3; 36; 35; 20; 2; 22; 0]; [0; 18; 4; 47; 0]; [0; 12; 5; 38; 16; 11; 46; 0];
        [0; 15; 45; 33; 39; 30; 34; 21; 29; 50; 9; 49; 10; 0]; [0; 17; 37; 44; 42; 19; 40; 41; 13; 25; 14; 0];
        [0; 27; 32; 1; 48; 23; 7; 43; 24; 6; 0]]%nat.
Proof. vm_compute. reflexivity. Qed.
