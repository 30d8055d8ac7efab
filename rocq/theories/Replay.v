(** The model replays the stored data of the tests.  The tests of the ensembles compare what the code
    makes of a seed with stored graphs; these are tests of the model in the same way: on the words of
    [Pcg64] with the seed of the test, the model gives the stored graph, with the neighbours in the
    stored order, and the stored state of the generator.
    Of the larger runs only the values are kept, as the build computes them ([Eval vm_compute]), so
    that checking the compiled file does not run them again. *)
From Verif Require Import Base Containers Graph Rng Float ErC ErM Sw Prob Words.
From Coq Require Import NArith ZArith QArith SpecFloat.
Set Implicit Arguments.
Local Open Scope nat_scope.

(** The neighbours of every vertex. *)
Definition lists {T} (g : graph (node_container T)) : list (list N) :=
  map (fun c => map N.of_nat (nc_adj c)) (vertices g).
(** With the targets in the original ring. *)
Definition sw_lists {T} (g : graph (sw_container T)) : list (list (N * option N)) :=
  map (fun c => map (fun x => (N.of_nat (se_to x), option_map N.of_nat (se_orig x))) (sc_adj c)) (vertices g).

(** The first value of the result, where all words are used. *)
Definition all_used {X} (r : outcome (X * list N)) : option X :=
  match r with Done (x, []) => Some x | _ => None end.

(** /repo/TestData/unchaning_sw_1.json, made by /repo/tests/integration_test_sw.rs with 123 vertices, probability 0.1
    and seed 123929. *)
Definition stored_sw_1 : list (list (N * option N)) := (
  [[(1, Some 1); (2, Some 2); (121, None); (122, None)];
   [(0, None); (2, Some 2); (3, Some 3); (122, None)];
   [(0, None); (1, None); (3, Some 3); (4, Some 4)];
   [(1, None); (2, None); (4, Some 4); (97, Some 5)];
   [(2, None); (3, None); (5, Some 5); (6, Some 6)];
   [(7, Some 7); (4, None); (6, Some 6)];
   [(4, None); (5, None); (7, Some 7); (8, Some 8)];
   [(5, None); (6, None); (8, Some 8); (9, Some 9); (113, None)];
   [(6, None); (7, None); (9, Some 9); (10, Some 10)];
   [(7, None); (8, None); (10, Some 10); (11, Some 11)];
   [(8, None); (9, None); (11, Some 11); (12, Some 12)];
   [(9, None); (10, None); (12, Some 12); (13, Some 13)];
   [(10, None); (11, None); (13, Some 13); (14, Some 14)];
   [(11, None); (12, None); (14, Some 14); (15, Some 15)];
   [(12, None); (13, None); (15, Some 15); (16, Some 16)];
   [(13, None); (14, None); (16, Some 16); (17, Some 17)];
   [(14, None); (15, None); (17, Some 17); (18, Some 18)];
   [(15, None); (16, None); (18, Some 18); (19, Some 19)];
   [(16, None); (17, None); (19, Some 19); (20, Some 20)];
   [(17, None); (18, None); (20, Some 20); (21, Some 21)];
   [(18, None); (19, None); (21, Some 21); (118, Some 22)];
   [(19, None); (20, None); (22, Some 22); (111, Some 23); (43, None); (109, None)];
   [(24, Some 24); (21, None); (23, Some 23); (74, None)];
   [(88, Some 25); (22, None); (24, Some 24)];
   [(22, None); (23, None); (25, Some 25); (26, Some 26)];
   [(27, Some 27); (24, None); (26, Some 26)];
   [(24, None); (25, None); (27, Some 27); (28, Some 28)];
   [(25, None); (26, None); (28, Some 28); (29, Some 29)];
   [(26, None); (27, None); (29, Some 29); (30, Some 30)];
   [(27, None); (28, None); (30, Some 30); (31, Some 31)];
   [(28, None); (29, None); (31, Some 31); (32, Some 32)];
   [(29, None); (30, None); (32, Some 32); (33, Some 33); (64, None)];
   [(30, None); (31, None); (33, Some 33); (34, Some 34)];
   [(31, None); (32, None); (34, Some 34); (35, Some 35)];
   [(32, None); (33, None); (35, Some 35); (36, Some 36); (99, None)];
   [(33, None); (34, None); (36, Some 36); (37, Some 37)];
   [(34, None); (35, None); (37, Some 37); (38, Some 38); (100, None)];
   [(35, None); (36, None); (38, Some 38); (39, Some 39)];
   [(36, None); (37, None); (39, Some 39); (40, Some 40)];
   [(37, None); (38, None); (40, Some 40); (41, Some 41)];
   [(38, None); (39, None); (41, Some 41); (42, Some 42)];
   [(39, None); (40, None); (42, Some 42); (43, Some 43)];
   [(40, None); (41, None); (43, Some 43); (44, Some 44)];
   [(41, None); (42, None); (21, Some 44); (45, Some 45)];
   [(42, None); (46, Some 46); (45, Some 45); (116, None)];
   [(43, None); (44, None); (46, Some 46); (47, Some 47)];
   [(44, None); (45, None); (47, Some 47); (48, Some 48)];
   [(45, None); (46, None); (48, Some 48); (49, Some 49)];
   [(46, None); (47, None); (49, Some 49); (50, Some 50)];
   [(47, None); (48, None); (50, Some 50); (51, Some 51)];
   [(48, None); (49, None); (51, Some 51); (52, Some 52)];
   [(49, None); (50, None); (52, Some 52); (53, Some 53); (54, None)];
   [(50, None); (51, None); (53, Some 53); (54, Some 54)];
   [(51, None); (52, None); (54, Some 54); (55, Some 55)];
   [(52, None); (53, None); (55, Some 55); (51, Some 56)];
   [(53, None); (54, None); (56, Some 56); (57, Some 57)];
   [(58, Some 58); (55, None); (57, Some 57)];
   [(55, None); (56, None); (58, Some 58); (59, Some 59)];
   [(56, None); (57, None); (59, Some 59); (60, Some 60)];
   [(57, None); (58, None); (60, Some 60); (61, Some 61)];
   [(58, None); (59, None); (61, Some 61); (62, Some 62); (106, None)];
   [(59, None); (60, None); (62, Some 62); (63, Some 63)];
   [(60, None); (61, None); (63, Some 63); (64, Some 64)];
   [(61, None); (62, None); (64, Some 64); (65, Some 65)];
   [(62, None); (63, None); (65, Some 65); (31, Some 66)];
   [(63, None); (64, None); (66, Some 66); (67, Some 67)];
   [(68, Some 68); (65, None); (67, Some 67)];
   [(65, None); (66, None); (68, Some 68); (85, Some 69)];
   [(66, None); (67, None); (69, Some 69); (98, Some 70)];
   [(71, Some 71); (68, None); (70, Some 70)];
   [(72, Some 72); (69, None); (71, Some 71)];
   [(69, None); (70, None); (72, Some 72); (107, Some 73)];
   [(70, None); (71, None); (73, Some 73); (74, Some 74)];
   [(75, Some 75); (72, None); (74, Some 74)];
   [(72, None); (73, None); (22, Some 75); (76, Some 76)];
   [(73, None); (77, Some 77); (76, Some 76)];
   [(74, None); (75, None); (77, Some 77); (78, Some 78)];
   [(75, None); (76, None); (78, Some 78); (79, Some 79)];
   [(76, None); (77, None); (79, Some 79); (80, Some 80)];
   [(77, None); (78, None); (80, Some 80); (81, Some 81)];
   [(78, None); (79, None); (81, Some 81); (82, Some 82)];
   [(79, None); (80, None); (82, Some 82); (83, Some 83)];
   [(80, None); (81, None); (83, Some 83); (84, Some 84)];
   [(81, None); (82, None); (84, Some 84); (85, Some 85)];
   [(82, None); (83, None); (85, Some 85); (86, Some 86)];
   [(83, None); (84, None); (86, Some 86); (87, Some 87); (67, None)];
   [(84, None); (85, None); (87, Some 87); (88, Some 88)];
   [(85, None); (86, None); (88, Some 88); (89, Some 89)];
   [(86, None); (87, None); (89, Some 89); (90, Some 90); (23, None)];
   [(87, None); (88, None); (90, Some 90); (91, Some 91)];
   [(88, None); (89, None); (91, Some 91); (92, Some 92)];
   [(89, None); (90, None); (92, Some 92); (93, Some 93)];
   [(90, None); (91, None); (93, Some 93); (94, Some 94)];
   [(91, None); (92, None); (94, Some 94); (95, Some 95)];
   [(92, None); (93, None); (95, Some 95); (96, Some 96)];
   [(93, None); (94, None); (96, Some 96); (97, Some 97)];
   [(94, None); (95, None); (97, Some 97); (98, Some 98)];
   [(95, None); (96, None); (98, Some 98); (99, Some 99); (3, None)];
   [(96, None); (97, None); (99, Some 99); (100, Some 100); (68, None)];
   [(97, None); (98, None); (100, Some 100); (34, Some 101)];
   [(98, None); (99, None); (36, Some 101); (102, Some 102)];
   [(103, Some 103); (102, Some 102)];
   [(100, None); (101, None); (105, Some 103); (104, Some 104)];
   [(101, None); (105, Some 105); (104, Some 104)];
   [(102, None); (103, None); (105, Some 105); (106, Some 106)];
   [(103, None); (104, None); (106, Some 106); (107, Some 107); (102, None)];
   [(104, None); (105, None); (107, Some 107); (60, Some 108)];
   [(105, None); (106, None); (108, Some 108); (109, Some 109); (71, None)];
   [(110, Some 110); (107, None); (109, Some 109)];
   [(107, None); (108, None); (110, Some 110); (21, Some 111)];
   [(108, None); (109, None); (111, Some 111); (112, Some 112)];
   [(21, None); (110, None); (112, Some 112); (113, Some 113)];
   [(110, None); (111, None); (113, Some 113); (114, Some 114)];
   [(111, None); (112, None); (7, Some 114); (115, Some 115)];
   [(112, None); (116, Some 116); (115, Some 115)];
   [(113, None); (114, None); (116, Some 116); (117, Some 117)];
   [(114, None); (115, None); (44, Some 117); (118, Some 118)];
   [(115, None); (119, Some 119); (118, Some 118)];
   [(116, None); (117, None); (119, Some 119); (120, Some 120); (20, None)];
   [(117, None); (118, None); (120, Some 120); (121, Some 121)];
   [(118, None); (119, None); (121, Some 121); (122, Some 122)];
   [(119, None); (120, None); (122, Some 122); (0, Some 0)];
   [(120, None); (121, None); (0, Some 0); (1, Some 1)]])%N.
Example replay_sw_1 : let (ws, r) := pcg_words 266 (pcg_seed_from_u64 123929) in
  option_map (fun e => (sw_lists (sw_graph e), N.of_nat (edge_count (sw_graph e)), pcg_state r, pcg_increment r))
    (all_used (w_sw_new Debug (fun _ => tt) 123 (3602879701896397 # 36028797018963968) ws)) =
  Some (stored_sw_1, 246, 51015042678405368996917240639577526154, 183656034883860676411966786047982317377)%N.
Proof. vm_compute. reflexivity. Qed.

(** /repo/TestData/unchaning_sw_2.json, made by /repo/tests/integration_test_sw.rs with 133 vertices, probability 0.3
    and seed 1929. *)
Definition stored_sw_2 : list (list (N * option N)) := (
  [[(41, Some 1); (2, Some 2); (132, None)];
   [(132, None); (89, Some 2); (53, Some 3); (48, None)];
   [(0, None); (4, Some 4); (3, Some 3); (116, None); (121, None)];
   [(5, Some 5); (2, None); (4, Some 4); (109, None)];
   [(2, None); (3, None); (21, Some 5); (29, Some 6); (31, None)];
   [(3, None); (7, Some 7); (42, Some 6)];
   [(59, Some 8); (7, Some 7); (106, None)];
   [(5, None); (6, None); (17, Some 8); (9, Some 9); (39, None)];
   [(10, Some 10); (65, Some 9)];
   [(7, None); (11, Some 11); (10, Some 10); (77, None)];
   [(8, None); (9, None); (11, Some 11); (12, Some 12); (25, None)];
   [(9, None); (10, None); (131, Some 12); (103, Some 13); (120, None)];
   [(10, None); (14, Some 14); (13, Some 13); (76, None); (107, None)];
   [(15, Some 15); (12, None); (14, Some 14)];
   [(12, None); (13, None); (15, Some 15); (83, Some 16)];
   [(13, None); (14, None); (26, Some 16); (17, Some 17)];
   [(18, Some 18); (17, Some 17); (19, None)];
   [(15, None); (16, None); (129, Some 18); (19, Some 19); (7, None)];
   [(16, None); (20, Some 20); (19, Some 19); (79, None)];
   [(17, None); (18, None); (16, Some 20); (21, Some 21); (108, None)];
   [(18, None); (22, Some 22); (21, Some 21); (131, None)];
   [(19, None); (20, None); (74, Some 22); (23, Some 23); (4, None)];
   [(20, None); (118, Some 24); (23, Some 23); (61, None)];
   [(21, None); (22, None); (56, Some 24); (25, Some 25)];
   [(26, Some 26); (25, Some 25)];
   [(23, None); (24, None); (10, Some 26); (27, Some 27)];
   [(24, None); (15, None); (27, Some 27); (28, Some 28)];
   [(25, None); (26, None); (28, Some 28); (29, Some 29); (43, None); (60, None); (118, None); (119, None)];
   [(26, None); (27, None); (29, Some 29); (53, Some 30); (65, None); (131, None)];
   [(27, None); (28, None); (38, Some 30); (31, Some 31); (4, None); (85, None)];
   [(32, Some 32); (31, Some 31)];
   [(29, None); (30, None); (32, Some 32); (4, Some 33)];
   [(30, None); (31, None); (33, Some 33); (34, Some 34)];
   [(35, Some 35); (32, None); (34, Some 34)];
   [(32, None); (33, None); (123, Some 35); (36, Some 36)];
   [(33, None); (37, Some 37); (36, Some 36)];
   [(34, None); (35, None); (37, Some 37); (38, Some 38)];
   [(35, None); (36, None); (38, Some 38); (39, Some 39)];
   [(36, None); (37, None); (39, Some 39); (124, Some 40); (29, None); (71, None)];
   [(37, None); (38, None); (40, Some 40); (7, Some 41)];
   [(42, Some 42); (39, None); (41, Some 41)];
   [(0, None); (40, None); (42, Some 42); (43, Some 43)];
   [(40, None); (41, None); (123, Some 43); (62, Some 44); (5, None)];
   [(41, None); (27, Some 45); (121, Some 44); (114, None)];
   [(46, Some 46); (45, Some 45)];
   [(47, Some 47); (44, None); (46, Some 46); (98, None)];
   [(44, None); (45, None); (47, Some 47); (48, Some 48); (130, None)];
   [(45, None); (46, None); (48, Some 48); (49, Some 49); (77, None)];
   [(46, None); (47, None); (49, Some 49); (1, Some 50); (128, None)];
   [(47, None); (48, None); (50, Some 50); (51, Some 51)];
   [(52, Some 52); (49, None); (51, Some 51); (78, None)];
   [(49, None); (50, None); (118, Some 52); (53, Some 53); (99, None)];
   [(50, None); (54, Some 54); (58, Some 53)];
   [(51, None); (28, None); (54, Some 54); (55, Some 55); (1, None); (58, None); (91, None)];
   [(52, None); (53, None); (55, Some 55); (56, Some 56)];
   [(53, None); (54, None); (56, Some 56); (106, Some 57); (101, None)];
   [(54, None); (55, None); (57, Some 57); (58, Some 58); (23, None); (98, None); (112, None)];
   [(59, Some 59); (56, None); (125, Some 58)];
   [(56, None); (52, None); (53, Some 59); (128, Some 60)];
   [(57, None); (6, None); (60, Some 60); (75, Some 61); (118, None)];
   [(62, Some 62); (59, None); (27, Some 61)];
   [(63, Some 63); (22, Some 62)];
   [(60, None); (42, None); (63, Some 63); (64, Some 64); (111, None)];
   [(61, None); (62, None); (64, Some 64); (65, Some 65)];
   [(62, None); (63, None); (65, Some 65); (66, Some 66); (110, None)];
   [(63, None); (64, None); (28, Some 66); (67, Some 67); (8, None)];
   [(64, None); (68, Some 68); (79, Some 67)];
   [(65, None); (69, Some 69); (114, Some 68)];
   [(66, None); (70, Some 70); (107, Some 69)];
   [(67, None); (71, Some 71); (75, Some 70)];
   [(68, None); (72, Some 72); (71, Some 71)];
   [(69, None); (70, None); (72, Some 72); (38, Some 73)];
   [(70, None); (71, None); (73, Some 73); (74, Some 74)];
   [(75, Some 75); (72, None); (74, Some 74)];
   [(72, None); (73, None); (75, Some 75); (76, Some 76); (21, None); (120, None)];
   [(73, None); (74, None); (76, Some 76); (77, Some 77); (59, None); (69, None)];
   [(74, None); (75, None); (107, Some 77); (12, Some 78)];
   [(75, None); (9, Some 79); (47, Some 78)];
   [(80, Some 80); (50, Some 79); (130, None)];
   [(66, None); (109, Some 81); (18, Some 80)];
   [(78, None); (82, Some 82); (81, Some 81)];
   [(83, Some 83); (80, None); (82, Some 82)];
   [(80, None); (81, None); (83, Some 83); (84, Some 84)];
   [(81, None); (82, None); (84, Some 84); (85, Some 85); (14, None)];
   [(82, None); (83, None); (85, Some 85); (100, Some 86); (88, None)];
   [(83, None); (84, None); (110, Some 86); (29, Some 87)];
   [(88, Some 88); (87, Some 87)];
   [(89, Some 89); (86, None); (88, Some 88)];
   [(86, None); (87, None); (84, Some 89); (90, Some 90)];
   [(87, None); (1, None); (90, Some 90); (91, Some 91)];
   [(88, None); (89, None); (103, Some 91); (92, Some 92)];
   [(89, None); (53, Some 93); (109, Some 92)];
   [(90, None); (98, Some 94); (93, Some 93)];
   [(95, Some 95); (92, None); (94, Some 94)];
   [(96, Some 96); (93, None); (95, Some 95)];
   [(93, None); (94, None); (96, Some 96); (97, Some 97)];
   [(94, None); (95, None); (97, Some 97); (98, Some 98)];
   [(95, None); (96, None); (98, Some 98); (99, Some 99)];
   [(96, None); (97, None); (56, Some 99); (45, Some 100); (92, None)];
   [(97, None); (101, Some 101); (51, Some 100)];
   [(84, None); (102, Some 102); (101, Some 101)];
   [(99, None); (100, None); (55, Some 102); (103, Some 103)];
   [(100, None); (129, Some 104); (103, Some 103)];
   [(101, None); (102, None); (104, Some 104); (105, Some 105); (11, None); (90, None)];
   [(106, Some 106); (103, None); (105, Some 105)];
   [(103, None); (104, None); (106, Some 106); (107, Some 107)];
   [(104, None); (105, None); (6, Some 107); (107, Some 108); (55, None); (121, None)];
   [(105, None); (76, None); (108, Some 108); (12, Some 109); (68, None); (106, None)];
   [(19, Some 110); (107, None); (109, Some 109)];
   [(91, None); (108, None); (3, Some 110); (111, Some 111); (79, None)];
   [(85, None); (112, Some 112); (64, Some 111)];
   [(109, None); (113, Some 113); (62, Some 112); (112, None)];
   [(110, None); (111, Some 114); (56, Some 113)];
   [(111, None); (115, Some 115); (121, Some 114)];
   [(67, None); (43, Some 116); (115, Some 115); (129, None)];
   [(113, None); (114, None); (116, Some 116); (117, Some 117)];
   [(118, Some 118); (115, None); (2, Some 117)];
   [(115, None); (122, Some 119); (118, Some 118)];
   [(116, None); (117, None); (59, Some 119); (27, Some 120); (22, None); (51, None)];
   [(121, Some 121); (27, Some 120)];
   [(74, Some 122); (11, Some 121)];
   [(119, None); (113, None); (2, Some 122); (106, Some 123); (43, None)];
   [(117, None); (124, Some 124); (123, Some 123)];
   [(42, None); (122, None); (124, Some 124); (125, Some 125); (34, None)];
   [(122, None); (123, None); (125, Some 125); (126, Some 126); (38, None)];
   [(123, None); (124, None); (126, Some 126); (127, Some 127); (57, None)];
   [(124, None); (125, None); (127, Some 127); (128, Some 128)];
   [(125, None); (126, None); (128, Some 128); (129, Some 129)];
   [(126, None); (127, None); (129, Some 129); (48, Some 130); (58, None)];
   [(127, None); (128, None); (114, Some 130); (131, Some 131); (17, None); (102, None)];
   [(78, Some 132); (46, Some 131)];
   [(129, None); (11, None); (20, Some 132); (28, Some 0)];
   [(1, Some 1); (0, Some 0)]])%N.
Definition run_sw_2 := Eval vm_compute in (let (ws, r) := pcg_words 453 (pcg_seed_from_u64 1929) in
  option_map (fun e => (sw_lists (sw_graph e), N.of_nat (edge_count (sw_graph e)), pcg_state r, pcg_increment r))
    (all_used (w_sw_new Debug (fun _ => tt) 133 (5404319552844595 # 18014398509481984) ws))).
Example replay_sw_2 : run_sw_2 =
  Some (stored_sw_2, 266, 332053387181000444326263530552546318565, 100506697702689810237804728492070200641)%N.
Proof. reflexivity. Qed.

(** /repo/TestData/unchaning_sw_3.json, made by /repo/tests/integration_test_sw.rs with 123 vertices, probability 0.0
    and seed 1229. *)
Definition stored_sw_3 : list (list (N * option N)) := (
  [[(1, Some 1); (2, Some 2); (121, None); (122, None)];
   [(0, None); (2, Some 2); (3, Some 3); (122, None)];
   [(0, None); (1, None); (3, Some 3); (4, Some 4)];
   [(1, None); (2, None); (4, Some 4); (5, Some 5)];
   [(2, None); (3, None); (5, Some 5); (6, Some 6)];
   [(3, None); (4, None); (6, Some 6); (7, Some 7)];
   [(4, None); (5, None); (7, Some 7); (8, Some 8)];
   [(5, None); (6, None); (8, Some 8); (9, Some 9)];
   [(6, None); (7, None); (9, Some 9); (10, Some 10)];
   [(7, None); (8, None); (10, Some 10); (11, Some 11)];
   [(8, None); (9, None); (11, Some 11); (12, Some 12)];
   [(9, None); (10, None); (12, Some 12); (13, Some 13)];
   [(10, None); (11, None); (13, Some 13); (14, Some 14)];
   [(11, None); (12, None); (14, Some 14); (15, Some 15)];
   [(12, None); (13, None); (15, Some 15); (16, Some 16)];
   [(13, None); (14, None); (16, Some 16); (17, Some 17)];
   [(14, None); (15, None); (17, Some 17); (18, Some 18)];
   [(15, None); (16, None); (18, Some 18); (19, Some 19)];
   [(16, None); (17, None); (19, Some 19); (20, Some 20)];
   [(17, None); (18, None); (20, Some 20); (21, Some 21)];
   [(18, None); (19, None); (21, Some 21); (22, Some 22)];
   [(19, None); (20, None); (22, Some 22); (23, Some 23)];
   [(20, None); (21, None); (23, Some 23); (24, Some 24)];
   [(21, None); (22, None); (24, Some 24); (25, Some 25)];
   [(22, None); (23, None); (25, Some 25); (26, Some 26)];
   [(23, None); (24, None); (26, Some 26); (27, Some 27)];
   [(24, None); (25, None); (27, Some 27); (28, Some 28)];
   [(25, None); (26, None); (28, Some 28); (29, Some 29)];
   [(26, None); (27, None); (29, Some 29); (30, Some 30)];
   [(27, None); (28, None); (30, Some 30); (31, Some 31)];
   [(28, None); (29, None); (31, Some 31); (32, Some 32)];
   [(29, None); (30, None); (32, Some 32); (33, Some 33)];
   [(30, None); (31, None); (33, Some 33); (34, Some 34)];
   [(31, None); (32, None); (34, Some 34); (35, Some 35)];
   [(32, None); (33, None); (35, Some 35); (36, Some 36)];
   [(33, None); (34, None); (36, Some 36); (37, Some 37)];
   [(34, None); (35, None); (37, Some 37); (38, Some 38)];
   [(35, None); (36, None); (38, Some 38); (39, Some 39)];
   [(36, None); (37, None); (39, Some 39); (40, Some 40)];
   [(37, None); (38, None); (40, Some 40); (41, Some 41)];
   [(38, None); (39, None); (41, Some 41); (42, Some 42)];
   [(39, None); (40, None); (42, Some 42); (43, Some 43)];
   [(40, None); (41, None); (43, Some 43); (44, Some 44)];
   [(41, None); (42, None); (44, Some 44); (45, Some 45)];
   [(42, None); (43, None); (45, Some 45); (46, Some 46)];
   [(43, None); (44, None); (46, Some 46); (47, Some 47)];
   [(44, None); (45, None); (47, Some 47); (48, Some 48)];
   [(45, None); (46, None); (48, Some 48); (49, Some 49)];
   [(46, None); (47, None); (49, Some 49); (50, Some 50)];
   [(47, None); (48, None); (50, Some 50); (51, Some 51)];
   [(48, None); (49, None); (51, Some 51); (52, Some 52)];
   [(49, None); (50, None); (52, Some 52); (53, Some 53)];
   [(50, None); (51, None); (53, Some 53); (54, Some 54)];
   [(51, None); (52, None); (54, Some 54); (55, Some 55)];
   [(52, None); (53, None); (55, Some 55); (56, Some 56)];
   [(53, None); (54, None); (56, Some 56); (57, Some 57)];
   [(54, None); (55, None); (57, Some 57); (58, Some 58)];
   [(55, None); (56, None); (58, Some 58); (59, Some 59)];
   [(56, None); (57, None); (59, Some 59); (60, Some 60)];
   [(57, None); (58, None); (60, Some 60); (61, Some 61)];
   [(58, None); (59, None); (61, Some 61); (62, Some 62)];
   [(59, None); (60, None); (62, Some 62); (63, Some 63)];
   [(60, None); (61, None); (63, Some 63); (64, Some 64)];
   [(61, None); (62, None); (64, Some 64); (65, Some 65)];
   [(62, None); (63, None); (65, Some 65); (66, Some 66)];
   [(63, None); (64, None); (66, Some 66); (67, Some 67)];
   [(64, None); (65, None); (67, Some 67); (68, Some 68)];
   [(65, None); (66, None); (68, Some 68); (69, Some 69)];
   [(66, None); (67, None); (69, Some 69); (70, Some 70)];
   [(67, None); (68, None); (70, Some 70); (71, Some 71)];
   [(68, None); (69, None); (71, Some 71); (72, Some 72)];
   [(69, None); (70, None); (72, Some 72); (73, Some 73)];
   [(70, None); (71, None); (73, Some 73); (74, Some 74)];
   [(71, None); (72, None); (74, Some 74); (75, Some 75)];
   [(72, None); (73, None); (75, Some 75); (76, Some 76)];
   [(73, None); (74, None); (76, Some 76); (77, Some 77)];
   [(74, None); (75, None); (77, Some 77); (78, Some 78)];
   [(75, None); (76, None); (78, Some 78); (79, Some 79)];
   [(76, None); (77, None); (79, Some 79); (80, Some 80)];
   [(77, None); (78, None); (80, Some 80); (81, Some 81)];
   [(78, None); (79, None); (81, Some 81); (82, Some 82)];
   [(79, None); (80, None); (82, Some 82); (83, Some 83)];
   [(80, None); (81, None); (83, Some 83); (84, Some 84)];
   [(81, None); (82, None); (84, Some 84); (85, Some 85)];
   [(82, None); (83, None); (85, Some 85); (86, Some 86)];
   [(83, None); (84, None); (86, Some 86); (87, Some 87)];
   [(84, None); (85, None); (87, Some 87); (88, Some 88)];
   [(85, None); (86, None); (88, Some 88); (89, Some 89)];
   [(86, None); (87, None); (89, Some 89); (90, Some 90)];
   [(87, None); (88, None); (90, Some 90); (91, Some 91)];
   [(88, None); (89, None); (91, Some 91); (92, Some 92)];
   [(89, None); (90, None); (92, Some 92); (93, Some 93)];
   [(90, None); (91, None); (93, Some 93); (94, Some 94)];
   [(91, None); (92, None); (94, Some 94); (95, Some 95)];
   [(92, None); (93, None); (95, Some 95); (96, Some 96)];
   [(93, None); (94, None); (96, Some 96); (97, Some 97)];
   [(94, None); (95, None); (97, Some 97); (98, Some 98)];
   [(95, None); (96, None); (98, Some 98); (99, Some 99)];
   [(96, None); (97, None); (99, Some 99); (100, Some 100)];
   [(97, None); (98, None); (100, Some 100); (101, Some 101)];
   [(98, None); (99, None); (101, Some 101); (102, Some 102)];
   [(99, None); (100, None); (102, Some 102); (103, Some 103)];
   [(100, None); (101, None); (103, Some 103); (104, Some 104)];
   [(101, None); (102, None); (104, Some 104); (105, Some 105)];
   [(102, None); (103, None); (105, Some 105); (106, Some 106)];
   [(103, None); (104, None); (106, Some 106); (107, Some 107)];
   [(104, None); (105, None); (107, Some 107); (108, Some 108)];
   [(105, None); (106, None); (108, Some 108); (109, Some 109)];
   [(106, None); (107, None); (109, Some 109); (110, Some 110)];
   [(107, None); (108, None); (110, Some 110); (111, Some 111)];
   [(108, None); (109, None); (111, Some 111); (112, Some 112)];
   [(109, None); (110, None); (112, Some 112); (113, Some 113)];
   [(110, None); (111, None); (113, Some 113); (114, Some 114)];
   [(111, None); (112, None); (114, Some 114); (115, Some 115)];
   [(112, None); (113, None); (115, Some 115); (116, Some 116)];
   [(113, None); (114, None); (116, Some 116); (117, Some 117)];
   [(114, None); (115, None); (117, Some 117); (118, Some 118)];
   [(115, None); (116, None); (118, Some 118); (119, Some 119)];
   [(116, None); (117, None); (119, Some 119); (120, Some 120)];
   [(117, None); (118, None); (120, Some 120); (121, Some 121)];
   [(118, None); (119, None); (121, Some 121); (122, Some 122)];
   [(119, None); (120, None); (122, Some 122); (0, Some 0)];
   [(120, None); (121, None); (0, Some 0); (1, Some 1)]])%N.
Definition run_sw_3 := Eval vm_compute in (let (ws, r) := pcg_words 246 (pcg_seed_from_u64 1229) in
  option_map (fun e => (sw_lists (sw_graph e), N.of_nat (edge_count (sw_graph e)), pcg_state r, pcg_increment r))
    (all_used (w_sw_new Debug (fun _ => tt) 123 (0 # 1) ws))).
Example replay_sw_3 : run_sw_3 =
  Some (stored_sw_3, 246, 223003439587585534469519656338200640283, 6973207562831214866055923373536190567)%N.
Proof. reflexivity. Qed.

(** /repo/TestData/unchaning_sw_4.json, made by /repo/tests/integration_test_sw.rs with 133 vertices, probability 1.0
    and seed 1922239. *)
Definition stored_sw_4 : list (list (N * option N)) := (
  [[(82, Some 1); (95, Some 2)];
   [(127, None); (82, Some 2); (68, Some 3); (8, None); (22, None); (80, None); (105, None)];
   [(5, Some 4); (107, Some 3); (50, None); (65, None); (94, None)];
   [(122, Some 5); (26, Some 4)];
   [(51, Some 6); (114, Some 5); (45, None)];
   [(2, None); (14, Some 7); (71, Some 6); (13, None)];
   [(111, Some 8); (81, Some 7); (11, None); (34, None); (130, None)];
   [(38, Some 9); (22, Some 8); (54, None)];
   [(35, Some 10); (1, Some 9); (90, None); (106, None)];
   [(121, Some 11); (94, Some 10); (117, None)];
   [(27, Some 12); (70, Some 11); (23, None); (51, None); (129, None)];
   [(6, Some 13); (72, Some 12); (88, None)];
   [(52, Some 14); (104, Some 13)];
   [(82, Some 15); (5, Some 14)];
   [(5, None); (64, Some 16); (37, Some 15); (42, None); (74, None)];
   [(84, Some 17); (79, Some 16); (85, None)];
   [(106, Some 18); (36, Some 17); (86, None)];
   [(44, Some 19); (102, Some 18); (35, None); (106, None); (108, None); (118, None)];
   [(76, Some 20); (28, Some 19)];
   [(99, Some 21); (132, Some 20); (31, None)];
   [(27, Some 22); (45, Some 21)];
   [(31, Some 23); (49, Some 22); (40, None)];
   [(7, None); (1, Some 24); (81, Some 23); (25, None)];
   [(10, Some 25); (78, Some 24); (64, None); (98, None)];
   [(122, Some 26); (76, Some 25); (37, None); (68, None)];
   [(22, Some 27); (43, Some 26); (81, None)];
   [(3, None); (71, Some 28); (86, Some 27)];
   [(20, None); (10, None); (70, Some 28); (56, Some 29)];
   [(18, None); (93, Some 30); (30, Some 29); (122, None)];
   [(52, Some 31); (132, Some 30)];
   [(104, Some 32); (28, None); (93, Some 31); (48, None)];
   [(21, None); (19, Some 33); (88, Some 32)];
   [(46, Some 34); (122, Some 33); (40, None); (48, None); (129, None)];
   [(55, Some 35); (115, Some 34); (61, None)];
   [(112, Some 36); (6, Some 35); (54, None); (81, None)];
   [(8, None); (17, Some 37); (80, Some 36); (131, None)];
   [(16, None); (99, Some 38); (111, Some 37); (93, None)];
   [(14, None); (24, Some 39); (43, Some 38); (45, None); (124, None)];
   [(7, None); (68, Some 40); (39, Some 39); (84, None); (111, None)];
   [(123, Some 41); (38, None); (128, Some 40); (47, None)];
   [(21, Some 42); (32, Some 41)];
   [(82, Some 43); (74, Some 42); (113, None); (123, None); (124, None); (125, None)];
   [(126, Some 44); (14, Some 43)];
   [(37, None); (25, None); (102, Some 44); (126, Some 45); (67, None); (88, None)];
   [(17, None); (88, Some 46); (124, Some 45); (55, None); (58, None); (70, None)];
   [(20, None); (4, Some 47); (37, Some 46); (57, None)];
   [(32, None); (89, Some 48); (87, Some 47)];
   [(39, Some 49); (114, Some 48); (59, None); (76, None)];
   [(32, Some 50); (30, Some 49); (52, None)];
   [(21, None); (105, Some 51); (52, Some 50); (62, None); (65, None); (82, None)];
   [(2, Some 52); (102, Some 51); (72, None); (78, None); (109, None)];
   [(4, None); (96, Some 53); (10, Some 52); (66, None)];
   [(49, None); (29, None); (48, Some 53); (111, Some 54); (12, None); (75, None); (77, None)];
   [(127, Some 55); (64, Some 54); (56, None); (91, None)];
   [(7, Some 56); (34, Some 55); (87, None); (96, None); (125, None)];
   [(33, None); (44, Some 57); (104, Some 56); (110, None); (115, None)];
   [(27, None); (83, Some 58); (53, Some 57); (103, None)];
   [(98, Some 59); (45, Some 58)];
   [(71, Some 60); (44, Some 59)];
   [(107, Some 61); (47, Some 60); (92, None)];
   [(122, Some 62); (127, Some 61); (72, None); (107, None)];
   [(33, Some 63); (87, Some 62); (69, None)];
   [(49, Some 64); (76, Some 63); (111, None); (116, None)];
   [(90, Some 65); (76, Some 64)];
   [(53, None); (14, None); (83, Some 65); (23, Some 66); (68, None); (73, None)];
   [(49, Some 67); (2, Some 66)];
   [(51, Some 68); (92, Some 67); (121, None); (128, None); (130, None)];
   [(43, Some 69); (132, Some 68); (84, None)];
   [(38, None); (1, None); (64, Some 69); (24, Some 70); (98, None)];
   [(61, Some 71); (131, Some 70)];
   [(27, None); (10, None); (44, Some 71); (96, Some 72)];
   [(58, None); (26, None); (106, Some 72); (109, Some 73); (5, None); (87, None); (96, None); (102, None)];
   [(11, None); (60, Some 74); (50, Some 73)];
   [(64, Some 75); (83, Some 74)];
   [(41, None); (111, Some 76); (14, Some 75)];
   [(52, Some 77); (95, Some 76)];
   [(63, None); (62, None); (81, Some 77); (47, Some 78); (18, None); (24, None); (94, None); (121, None)];
   [(52, Some 79); (89, Some 78); (119, None)];
   [(23, None); (114, Some 80); (50, Some 79); (79, None)];
   [(15, None); (89, Some 81); (78, Some 80); (115, None)];
   [(35, None); (1, Some 82); (130, Some 81)];
   [(76, None); (22, None); (34, Some 82); (25, Some 83); (6, None); (83, None); (112, None); (119, None)];
   [(41, None); (13, None); (105, Some 83); (49, Some 84); (0, None); (1, None); (89, None)];
   [(73, None); (64, None); (105, Some 84); (81, Some 85); (56, None); (90, None); (117, None)];
   [(15, None); (38, Some 86); (67, Some 85); (108, None); (113, None)];
   [(15, Some 87); (114, Some 86); (126, None)];
   [(26, None); (16, Some 88); (111, Some 87)];
   [(61, None); (46, None); (71, Some 88); (54, Some 89)];
   [(44, None); (31, None); (43, Some 89); (11, Some 90); (107, None); (114, None)];
   [(79, None); (77, None); (109, Some 90); (82, Some 91); (46, None); (95, None); (114, None); (120, None); (126, None)];
   [(63, None); (83, Some 92); (8, Some 91); (105, None)];
   [(53, Some 93); (111, Some 92); (101, None); (116, None)];
   [(66, None); (59, Some 94); (107, Some 93); (102, None); (120, None)];
   [(30, None); (28, None); (98, Some 94); (36, Some 95)];
   [(9, None); (76, Some 96); (2, Some 95)];
   [(75, None); (0, None); (132, Some 96); (89, Some 97)];
   [(70, None); (51, None); (54, Some 97); (71, Some 98); (100, None); (104, None)];
   [(103, Some 99); (131, Some 98)];
   [(93, None); (57, None); (68, Some 99); (23, Some 100)];
   [(36, None); (19, None); (100, Some 100); (122, Some 101)];
   [(96, Some 102); (99, None); (112, Some 101)];
   [(129, Some 103); (91, Some 102); (118, None); (122, None)];
   [(50, None); (43, None); (92, Some 103); (71, Some 104); (17, None)];
   [(97, None); (56, Some 105); (125, Some 104); (123, None); (127, None)];
   [(55, None); (30, None); (118, Some 105); (96, Some 106); (12, None); (109, None)];
   [(83, None); (82, None); (1, Some 106); (90, Some 107); (49, None)];
   [(71, None); (16, None); (17, Some 107); (8, Some 108)];
   [(92, None); (59, None); (60, Some 108); (88, Some 109); (2, None)];
   [(84, Some 110); (17, Some 109)];
   [(89, None); (71, None); (104, Some 110); (50, Some 111)];
   [(125, Some 112); (55, Some 111); (131, None)];
   [(91, None); (86, None); (38, Some 112); (62, Some 113); (6, None); (36, None); (52, None); (74, None); (112, None)];
   [(100, None); (34, None); (111, Some 113); (81, Some 114)];
   [(41, Some 115); (84, Some 114)];
   [(85, None); (78, None); (89, Some 115); (88, Some 116); (4, None); (47, None); (132, None)];
   [(33, None); (79, Some 117); (55, Some 116)];
   [(62, Some 118); (91, Some 117)];
   [(83, Some 119); (9, Some 118)];
   [(104, None); (101, Some 120); (17, Some 119)];
   [(77, Some 121); (81, Some 120)];
   [(92, Some 122); (89, Some 121)];
   [(9, None); (66, Some 123); (76, Some 122); (128, None); (132, None)];
   [(99, None); (60, None); (101, Some 123); (28, Some 124); (3, None); (24, None); (32, None)];
   [(39, None); (103, Some 125); (41, Some 124)];
   [(44, None); (37, Some 126); (41, Some 125)];
   [(110, None); (103, None); (41, Some 126); (54, Some 127)];
   [(43, None); (42, None); (89, Some 127); (85, Some 128)];
   [(60, None); (53, None); (103, Some 128); (1, Some 129)];
   [(39, None); (121, Some 130); (66, Some 129)];
   [(101, None); (10, Some 131); (32, Some 130)];
   [(80, None); (6, Some 132); (66, Some 131)];
   [(97, None); (69, None); (110, Some 132); (35, Some 0)];
   [(95, None); (67, None); (121, Some 0); (114, Some 1); (19, None); (29, None)]])%N.
Definition run_sw_4 := Eval vm_compute in (let (ws, r) := pcg_words 810 (pcg_seed_from_u64 1922239) in
  option_map (fun e => (sw_lists (sw_graph e), N.of_nat (edge_count (sw_graph e)), pcg_state r, pcg_increment r))
    (all_used (w_sw_new Debug (fun _ => tt) 133 (1 # 1) ws))).
Example replay_sw_4 : run_sw_4 =
  Some (stored_sw_4, 266, 11911996900272316624583525373214877732, 71333470150771988304919182731680972433)%N.
Proof. reflexivity. Qed.

(** /repo/TestData/unchaning_erc_1.json, made by /repo/tests/integration_test_er_c.rs with 123 vertices, connectivity 2.0
    and seed 123929; the stored probability is 0.01639344262295082. *)
Definition stored_erc_1 : list (list N) := (
  [[8; 50];
   [17; 92];
   [97; 98];
   [51];
   [];
   [66];
   [7; 18; 63; 73; 116];
   [6; 22; 31];
   [0; 31; 99; 101; 109];
   [94];
   [27; 68];
   [14; 76];
   [35; 47; 107];
   [];
   [11; 109; 119];
   [105];
   [47; 60; 104];
   [1; 58];
   [6; 39; 119];
   [56; 59];
   [37; 119];
   [30; 34];
   [7; 29; 37; 115];
   [29; 110];
   [28; 33; 75];
   [107];
   [];
   [10; 50; 64; 101];
   [24; 116];
   [22; 23];
   [21; 106];
   [7; 8; 45; 69; 80];
   [];
   [24];
   [21; 73];
   [12; 59; 96; 111];
   [];
   [20; 22; 59];
   [83; 115];
   [18];
   [99];
   [114];
   [];
   [];
   [90; 122];
   [31; 78; 122];
   [57; 67; 82];
   [12; 16; 61];
   [53; 69; 70];
   [];
   [0; 27; 52];
   [3; 112];
   [50; 89];
   [48; 77];
   [59];
   [114];
   [19; 114];
   [46];
   [17; 111];
   [19; 35; 37; 54; 109];
   [16; 84; 87];
   [47; 115];
   [];
   [6];
   [27; 67];
   [113];
   [5; 83];
   [46; 64];
   [10; 86];
   [31; 48];
   [48; 96];
   [];
   [];
   [6; 34; 104];
   [103];
   [24];
   [11; 98; 115];
   [53];
   [45];
   [];
   [31];
   [96; 99; 107];
   [46];
   [38; 66; 114];
   [60; 103];
   [101; 118];
   [68];
   [60];
   [];
   [52];
   [44];
   [];
   [1; 104];
   [95; 116];
   [9];
   [93];
   [35; 70; 81];
   [2];
   [2; 76];
   [8; 40; 81; 106];
   [117];
   [8; 27; 85];
   [];
   [74; 84];
   [16; 73; 92];
   [15; 119];
   [30; 99];
   [12; 25; 81];
   [];
   [8; 14; 59];
   [23];
   [35; 58];
   [51];
   [65];
   [41; 55; 56; 83];
   [22; 38; 61; 76; 121];
   [6; 28; 93];
   [100];
   [85];
   [14; 18; 20; 105];
   [];
   [115];
   [44; 45]])%N.
Definition run_erc_1 := Eval vm_compute in (let (ws, r) := pcg_words (N.to_nat 7503) (pcg_seed_from_u64 123929) in
  option_map (fun e => (lists (erc64_graph e), N.of_nat (edge_count (erc64_graph e)), erc64_prob e, pcg_state r, pcg_increment r))
    (all_used (w_erc64_new Debug (fun _ => tt) 123 (S754_finite false 4503599627370496 (-51))%Z ws))).
Example replay_erc_1 : run_erc_1 =
  Some (stored_erc_1, 114%N, (S754_finite false 4725088133634619 (-58))%Z, 103351683054088967642735476471338970271%N, 183656034883860676411966786047982317377%N).
Proof. reflexivity. Qed.

(** /repo/TestData/unchaning_erm_1.json, made by /repo/tests/integration_test_er_m.rs with 123 vertices, 921 edges
    and seed 123929. *)
Definition stored_erm_1 : list (list N) := (
  [[92; 4; 38; 76; 119; 54; 52; 90; 80; 86; 9; 65];
   [99; 3; 60; 117; 57; 72; 74; 62; 112; 5; 4; 39; 28; 14; 113; 44; 32; 89; 93; 95; 2];
   [89; 72; 48; 117; 41; 13; 104; 111; 83; 92; 118; 49; 26; 36; 1];
   [1; 116; 28; 92; 9; 103; 21; 38; 98; 37; 96; 64];
   [0; 109; 15; 95; 80; 32; 1; 55; 31; 33; 62; 102; 119; 108; 97];
   [100; 47; 122; 112; 107; 17; 52; 79; 56; 67; 72; 1; 82; 102; 101];
   [61; 51; 96; 39; 90; 53; 32; 89; 97; 11; 15; 78];
   [113; 88; 15; 69; 87; 46; 108; 66; 94; 45; 102; 89; 11; 90];
   [95; 80; 93; 90; 88; 54; 57; 20];
   [61; 110; 50; 89; 23; 112; 108; 41; 3; 105; 70; 115; 97; 0; 29; 13];
   [85; 99; 89; 74; 86; 116; 106; 95; 78; 37; 23; 26];
   [119; 79; 50; 33; 77; 6; 30; 84; 86; 56; 90; 41; 7; 70; 110; 31];
   [118; 101; 63; 42; 47; 51; 59; 90; 96; 119; 92; 29; 93; 54; 81; 88; 30; 35; 80; 40];
   [51; 116; 44; 35; 108; 16; 2; 94; 31; 9];
   [19; 118; 25; 107; 90; 64; 93; 65; 1];
   [122; 16; 7; 21; 4; 66; 37; 6; 118; 57; 108; 81; 109];
   [15; 80; 73; 33; 13; 41; 45; 71; 106; 25];
   [94; 92; 118; 74; 95; 71; 79; 5; 81; 121; 21; 105; 84; 61; 66; 68; 53];
   [49; 38; 100; 24; 108; 39; 69; 104; 42; 36; 29; 113];
   [14; 101; 45; 44; 68; 30; 78; 118; 84; 95; 57; 27; 74];
   [21; 118; 31; 84; 33; 46; 74; 96; 8];
   [15; 95; 51; 17; 20; 57; 3; 32; 78; 119; 61];
   [79; 99; 101; 106; 71; 66; 65; 90; 85; 104; 114];
   [108; 24; 29; 54; 91; 41; 71; 82; 9; 85; 84; 31; 104; 44; 10; 34];
   [61; 23; 109; 74; 82; 27; 35; 91; 18; 37; 73; 92; 39; 108; 122];
   [34; 63; 48; 14; 66; 62; 68; 122; 32; 65; 16; 97; 56];
   [93; 112; 116; 55; 46; 104; 64; 68; 106; 2; 10; 72];
   [106; 34; 76; 56; 45; 64; 83; 92; 119; 24; 111; 87; 112; 19];
   [80; 32; 94; 37; 3; 35; 38; 97; 98; 60; 122; 100; 1; 58; 63; 92];
   [55; 103; 23; 67; 108; 37; 66; 71; 12; 48; 60; 65; 91; 18; 98; 107; 9];
   [104; 93; 78; 19; 11; 75; 98; 79; 12];
   [44; 45; 75; 111; 33; 23; 95; 121; 20; 99; 4; 73; 59; 13; 112; 11];
   [59; 28; 105; 86; 77; 6; 4; 21; 25; 88; 72; 1; 113; 62; 39; 100; 51; 119];
   [66; 47; 45; 16; 31; 11; 78; 84; 114; 108; 40; 91; 57; 20; 4; 95; 76; 113];
   [79; 27; 62; 58; 25; 108; 94; 105; 35; 102; 93; 80; 87; 64; 81; 23; 55];
   [121; 13; 34; 28; 24; 69; 95; 104; 60; 89; 49; 12; 92; 75; 52];
   [102; 81; 69; 47; 86; 117; 76; 56; 122; 18; 44; 2];
   [29; 85; 104; 28; 93; 44; 15; 68; 24; 103; 72; 10; 73; 3];
   [52; 74; 0; 18; 104; 28; 111; 3; 93; 82; 120; 110];
   [6; 44; 117; 108; 120; 60; 61; 70; 50; 18; 24; 84; 1; 49; 32; 87];
   [73; 78; 117; 94; 93; 33; 80; 12; 65; 71; 119; 68; 82];
   [100; 105; 63; 117; 93; 23; 2; 9; 16; 70; 11; 49];
   [45; 119; 102; 114; 51; 12; 88; 103; 18; 49; 85; 81; 87; 77];
   [93; 100; 56; 82; 105; 109; 45; 58; 67; 61; 110; 91; 76; 50; 59; 103];
   [120; 31; 76; 78; 105; 13; 46; 39; 19; 89; 121; 103; 37; 23; 1; 36; 64; 53; 112];
   [31; 42; 27; 19; 92; 65; 33; 87; 94; 7; 66; 16; 43; 49; 89; 108];
   [7; 79; 110; 54; 44; 55; 83; 114; 74; 77; 26; 93; 91; 20; 82; 121];
   [53; 60; 49; 36; 5; 33; 12; 85; 84; 62; 101; 63];
   [115; 100; 104; 25; 2; 93; 117; 110; 88; 29; 108];
   [47; 18; 55; 60; 90; 82; 101; 70; 100; 73; 45; 35; 42; 39; 2; 94; 117; 41];
   [115; 53; 9; 99; 114; 11; 111; 106; 91; 100; 55; 39; 56; 73; 105; 66; 43; 119];
   [117; 6; 13; 42; 73; 86; 12; 21; 67; 102; 103; 55; 78; 106; 101; 66; 32];
   [38; 99; 109; 93; 63; 100; 5; 65; 61; 0; 118; 106; 35; 80; 89];
   [47; 101; 59; 121; 50; 77; 6; 100; 71; 90; 64; 58; 88; 92; 44; 17; 115; 70];
   [111; 93; 46; 23; 89; 58; 95; 0; 98; 8; 12; 104; 64; 100; 71];
   [29; 46; 110; 49; 26; 51; 79; 78; 83; 50; 4; 80; 34];
   [119; 27; 114; 70; 43; 101; 66; 115; 120; 91; 5; 71; 36; 50; 117; 95; 11; 73; 25; 106];
   [116; 121; 1; 93; 64; 21; 118; 8; 15; 33; 66; 109; 19; 107; 79];
   [102; 34; 87; 119; 54; 79; 91; 43; 59; 53; 28; 73; 88];
   [104; 98; 114; 53; 32; 65; 107; 12; 87; 78; 70; 58; 31; 43; 99];
   [88; 119; 47; 1; 117; 81; 75; 39; 49; 65; 96; 63; 29; 28; 35; 104; 66; 95; 120; 83];
   [6; 24; 9; 111; 87; 121; 99; 97; 52; 39; 120; 17; 43; 122; 67; 21];
   [67; 34; 97; 1; 25; 89; 86; 106; 111; 91; 47; 4; 32];
   [121; 25; 12; 52; 41; 68; 108; 109; 60; 28; 47];
   [27; 78; 85; 96; 105; 14; 57; 53; 94; 54; 84; 79; 26; 34; 44; 3];
   [67; 78; 93; 59; 45; 119; 97; 52; 60; 96; 29; 22; 14; 69; 25; 81; 40; 0; 92];
   [33; 101; 110; 25; 56; 122; 83; 15; 67; 7; 29; 78; 45; 22; 57; 60; 85; 51; 17; 50];
   [62; 65; 29; 69; 51; 66; 90; 114; 115; 97; 5; 88; 43; 80; 84; 111; 61];
   [19; 63; 25; 37; 97; 112; 90; 105; 92; 74; 82; 75; 89; 26; 17; 40];
   [7; 36; 101; 70; 67; 115; 35; 99; 18; 65; 78];
   [87; 56; 119; 69; 59; 49; 39; 9; 108; 41; 106; 11; 112; 53];
   [114; 81; 17; 23; 98; 115; 79; 53; 88; 29; 56; 22; 82; 118; 100; 16; 108; 54; 99; 40];
   [2; 1; 82; 5; 37; 103; 97; 32; 109; 77; 26];
   [40; 16; 51; 115; 81; 49; 24; 110; 37; 56; 31; 50; 58; 111];
   [108; 17; 10; 24; 38; 46; 1; 106; 109; 68; 20; 94; 19];
   [103; 31; 101; 89; 105; 60; 93; 30; 68; 35; 96];
   [27; 89; 44; 122; 36; 0; 113; 43; 33; 112; 78];
   [94; 53; 79; 46; 122; 32; 11; 118; 96; 104; 100; 42; 113; 116; 72];
   [85; 90; 65; 40; 44; 64; 84; 116; 97; 114; 33; 59; 30; 66; 55; 19; 10; 21; 51; 120; 6; 103; 101; 69; 76];
   [22; 34; 97; 46; 11; 17; 58; 77; 71; 5; 55; 112; 64; 30; 57; 101];
   [28; 99; 8; 108; 16; 106; 95; 4; 40; 83; 34; 67; 55; 0; 12; 103; 52];
   [36; 71; 101; 99; 92; 60; 87; 17; 120; 73; 116; 12; 117; 15; 98; 119; 34; 42; 65];
   [100; 43; 24; 23; 72; 95; 49; 71; 5; 38; 68; 46; 40];
   [121; 106; 84; 27; 46; 66; 93; 55; 2; 80; 105; 103; 60; 100; 101];
   [118; 83; 78; 23; 33; 109; 11; 47; 17; 19; 64; 67; 39; 20; 96];
   [78; 10; 37; 64; 47; 23; 93; 111; 22; 42; 66];
   [10; 51; 36; 32; 62; 11; 94; 0; 120];
   [58; 70; 7; 61; 112; 59; 81; 107; 45; 27; 115; 103; 34; 42; 39; 106];
   [60; 7; 98; 42; 71; 8; 48; 67; 12; 32; 101; 53; 58];
   [2; 76; 10; 9; 54; 44; 75; 62; 122; 6; 7; 35; 109; 45; 1; 68; 114; 52];
   [78; 6; 108; 97; 110; 12; 8; 67; 14; 53; 118; 49; 96; 114; 22; 68; 11; 0; 7; 113];
   [23; 102; 56; 50; 58; 24; 111; 33; 46; 29; 62; 43; 99];
   [17; 0; 119; 101; 81; 27; 45; 3; 115; 114; 12; 2; 24; 68; 35; 53; 65; 28];
   [43; 54; 26; 65; 52; 48; 41; 8; 105; 110; 30; 37; 85; 57; 14; 83; 40; 75; 46; 12; 34; 38; 1; 99; 95; 98];
   [17; 118; 77; 28; 34; 120; 40; 7; 106; 13; 45; 105; 64; 121; 95; 86; 49; 74];
   [8; 17; 21; 97; 54; 80; 82; 10; 4; 35; 31; 115; 100; 19; 122; 56; 94; 33; 60; 1; 93];
   [101; 6; 111; 64; 12; 90; 77; 60; 65; 120; 102; 84; 20; 3; 75];
   [119; 79; 90; 115; 62; 78; 95; 61; 65; 6; 67; 28; 68; 9; 72; 117; 25; 4];
   [59; 114; 110; 88; 71; 54; 28; 3; 30; 115; 81; 29; 100; 93];
   [80; 52; 1; 10; 22; 81; 50; 61; 106; 69; 31; 93; 71; 91; 59];
   [48; 41; 43; 5; 114; 82; 52; 18; 53; 117; 50; 49; 95; 71; 77; 54; 28; 98; 32; 83];
   [53; 96; 66; 103; 19; 118; 12; 92; 69; 22; 75; 81; 56; 111; 49; 88; 78; 115; 51; 47; 83; 5; 79];
   [36; 58; 42; 115; 91; 108; 34; 51; 118; 7; 96; 4; 5];
   [29; 101; 75; 44; 51; 121; 3; 37; 42; 87; 72; 78; 83; 80; 43];
   [59; 48; 30; 37; 38; 26; 2; 23; 35; 54; 60; 77; 18; 22];
   [41; 44; 34; 32; 93; 75; 43; 64; 9; 17; 115; 94; 68; 83; 50; 106];
   [27; 80; 83; 120; 74; 10; 94; 50; 22; 99; 62; 52; 51; 70; 26; 16; 87; 56; 105];
   [59; 5; 119; 14; 87; 29; 57];
   [74; 23; 80; 34; 29; 90; 7; 13; 39; 120; 102; 9; 33; 63; 18; 15; 70; 24; 71; 45; 4; 48];
   [52; 24; 4; 114; 84; 63; 43; 74; 15; 57; 89; 72];
   [9; 66; 98; 46; 90; 93; 55; 48; 73; 43; 38; 11];
   [54; 118; 61; 96; 31; 50; 27; 2; 101; 119; 38; 91; 62; 116; 85; 67; 73];
   [87; 5; 26; 9; 1; 79; 68; 27; 31; 76; 70; 44];
   [7; 76; 18; 1; 114; 33; 32; 90; 77];
   [59; 56; 71; 42; 100; 98; 109; 46; 50; 78; 33; 67; 92; 90; 113; 22; 89];
   [48; 50; 102; 97; 56; 71; 69; 92; 67; 73; 105; 9; 95; 87; 98; 101; 53];
   [57; 3; 13; 78; 26; 10; 81; 111; 77];
   [51; 60; 41; 1; 2; 36; 48; 39; 40; 100; 119; 56; 81; 97; 49];
   [12; 94; 111; 17; 101; 14; 84; 77; 119; 90; 57; 19; 20; 71; 15; 102; 52; 120; 2];
   [56; 97; 60; 11; 42; 92; 70; 120; 58; 27; 107; 65; 12; 0; 117; 118; 111; 21; 81; 4; 40; 32; 50];
   [44; 106; 119; 94; 56; 108; 39; 81; 61; 78; 96; 118; 38; 86; 60];
   [63; 83; 35; 53; 57; 61; 44; 17; 103; 31; 94; 46];
   [15; 5; 66; 76; 77; 89; 25; 36; 28; 95; 24; 61]])%N.
Definition run_erm_1 := Eval vm_compute in (let (ws, r) := pcg_words (N.to_nat 10653) (pcg_seed_from_u64 123929) in
  option_map (fun e => (lists (erm_graph e), N.of_nat (edge_count (erm_graph e)), pcg_state r, pcg_increment r))
    (all_used (w_erm_new Debug (fun _ => tt) 123 (N.to_nat 921) ws))).
Example replay_erm_1 : run_erm_1 =
  Some (stored_erm_1, 921, 80724867062215896487812108035232961201, 183656034883860676411966786047982317377)%N.
Proof. reflexivity. Qed.

(** /repo/tests/integration_test_er_c.rs, [test_graph_construction] and [test_complete_graph]: seed 76, 20 vertices
    and connectivity 2.7 make 28 edges, and connectivity 19 all 190. *)
Example replay_construction : let (ws, r) := pcg_words 190 (pcg_seed_from_u64 76) in
  (option_map (fun e => edge_count (erc64_graph e)) (all_used (w_erc64_new Debug (fun _ => tt) 20 (S754_finite false 6079859496950170 (-51))%Z ws)),
   option_map (fun e => edge_count (erc64_graph e)) (all_used (w_erc64_new Debug (fun _ => tt) 20 (S754_finite false 5348024557502464 (-48))%Z ws))) =
  (Some 28, Some 190).
Proof. vm_compute. reflexivity. Qed.
