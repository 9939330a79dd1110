(** pygsp/data/pointclouds/logogsp.mat.  Generated by tools/extract_data.py. *)
From Coq Require Import List NArith.
Import ListNotations.
Open Scope N_scope.
Definition logo_W_0 : list (N * N * N) := [
(1,0,1); (12,0,1); (13,0,1); (14,0,1); (32,0,1); (108,0,1); (194,0,1); (0,1,1); (2,1,1); (14,1,1); (15,1,1); (186,1,1);
(197,1,1); (1,2,1); (3,2,1); (15,2,1); (16,2,1); (88,2,1); (93,2,1); (103,2,1); (2,3,1); (4,3,1); (16,3,1); (17,3,1);
(20,3,1); (31,3,1); (3,4,1); (5,4,1); (17,4,1); (18,4,1); (41,4,1); (70,4,1); (4,5,1); (18,5,1); (19,5,1); (268,5,1);
(7,6,1); (23,6,1); (24,6,1); (6,7,1); (8,7,1); (24,7,1); (25,7,1); (89,7,1); (7,8,1); (9,8,1); (25,8,1); (26,8,1);
(95,8,1); (201,8,1); (8,9,1); (10,9,1); (26,9,1); (95,9,1); (9,10,1); (11,10,1); (27,10,1); (178,10,1); (10,11,1); (27,11,1);
(28,11,1); (29,11,1); (178,11,1); (0,12,1); (13,12,1); (32,12,1); (42,12,1); (0,13,1); (12,13,1); (14,13,1); (0,14,1); (1,14,1);
(13,14,1); (15,14,1); (20,14,1); (81,14,1); (1,15,1); (2,15,1); (14,15,1); (16,15,1); (241,15,1); (2,16,1); (3,16,1); (15,16,1);
(17,16,1); (197,16,1); (3,17,1); (4,17,1); (16,17,1); (18,17,1); (186,17,1); (198,17,1); (4,18,1); (5,18,1); (17,18,1); (19,18,1);
(87,18,1); (5,19,1); (18,19,1); (20,19,1); (32,19,1); (33,19,1); (42,19,1); (104,19,1); (262,19,1); (268,19,1); (3,20,1); (14,20,1);
(19,20,1); (33,20,1); (34,20,1); (22,21,1); (36,21,1); (37,21,1); (100,21,1); (21,22,1); (23,22,1); (24,22,1); (29,22,1); (37,22,1);
(38,22,1); (73,22,1); (6,23,1); (22,23,1); (24,23,1); (181,23,1); (6,24,1); (7,24,1); (22,24,1); (23,24,1); (25,24,1); (7,25,1);
(8,25,1); (24,25,1); (178,25,1); (179,25,1); (244,25,1); (8,26,1); (9,26,1); (27,26,1); (75,26,1); (170,26,1); (10,27,1); (11,27,1);
(26,27,1); (28,27,1); (191,27,1); (226,27,1); (11,28,1); (27,28,1); (29,28,1); (176,28,1); (178,28,1); (11,29,1); (22,29,1); (28,29,1);
(30,29,1); (36,29,1); (38,29,1); (29,30,1); (38,30,1); (39,30,1); (83,30,1); (270,30,1); (3,31,1); (32,31,1); (40,31,1); (41,31,1);
(70,31,1); (0,32,1); (12,32,1); (19,32,1); (31,32,1); (41,32,1); (19,33,1); (20,33,1); (34,33,1); (94,33,1); (20,34,1); (33,34,1);
(42,34,1); (72,34,1); (207,34,1); (36,35,1); (43,35,1); (44,35,1); (170,35,1); (21,36,1); (29,36,1); (35,36,1); (37,36,1); (44,36,1);
(118,36,1); (21,37,1); (22,37,1); (36,37,1); (178,37,1); (281,37,1); (22,38,1); (29,38,1); (30,38,1); (39,38,1); (178,38,1); (30,39,1);
(38,39,1); (45,39,1); (178,39,1); (31,40,1); (41,40,1); (70,40,1); (196,40,1); (205,40,1); (4,41,1); (31,41,1); (32,41,1); (40,41,1);
(12,42,1); (19,42,1); (34,42,1); (71,42,1); (72,42,1); (184,42,1); (195,42,1); (35,43,1); (44,43,1); (73,43,1); (118,43,1); (35,44,1);
(36,44,1); (43,44,1); (73,44,1); (190,44,1); (39,45,1); (46,45,1); (74,45,1); (157,45,1); (326,45,1); (45,46,1); (74,46,1); (83,46,1);
(110,46,1); (172,46,1); (48,47,1); (49,47,1); (50,47,1); (133,47,1); (47,48,1); (49,48,1); (50,48,1); (332,48,1); (47,49,1); (48,49,1);
(50,49,1); (51,49,1); (303,49,1); (47,50,1); (48,50,1); (49,50,1); (51,50,1); (52,50,1); (215,50,1); (49,51,1); (50,51,1); (52,51,1);
(53,51,1); (214,51,1); (259,51,1); (271,51,1); (50,52,1); (51,52,1); (53,52,1); (54,52,1); (150,52,1); (231,52,1); (51,53,1); (52,53,1);
(54,53,1); (55,53,1); (211,53,1); (212,53,1); (215,53,1); (52,54,1); (53,54,1); (55,54,1); (56,54,1); (58,54,1); (53,55,1); (54,55,1);
(56,55,1); (57,55,1); (54,56,1); (55,56,1); (57,56,1); (58,56,1); (64,56,1); (55,57,1); (56,57,1); (58,57,1); (59,57,1); (65,57,1);
(54,58,1); (56,58,1); (57,58,1); (59,58,1); (60,58,1); (61,58,1); (213,58,1); (57,59,1); (58,59,1); (60,59,1); (61,59,1); (218,59,1);
(58,60,1); (59,60,1); (61,60,1); (62,60,1); (288,60,1); (58,61,1); (59,61,1); (60,61,1); (62,61,1); (63,61,1); (60,62,1); (61,62,1);
(63,62,1); (64,62,1); (214,62,1); (61,63,1); (62,63,1); (64,63,1); (65,63,1); (76,63,1); (56,64,1); (62,64,1); (63,64,1); (65,64,1);
(230,64,1); (254,64,1); (57,65,1); (63,65,1); (64,65,1); (66,65,1); (247,65,1); (65,66,1); (67,66,1); (76,66,1); (304,66,1); (66,67,1);
(68,67,1); (76,67,1); (67,68,1); (69,68,1); (76,68,1); (77,68,1); (79,68,1); (237,68,1); (238,68,1); (68,69,1); (76,69,1); (77,69,1);
(78,69,1); (218,69,1); (4,70,1); (31,70,1); (40,70,1); (80,70,1); (87,70,1); (42,71,1); (72,71,1); (81,71,1); (206,71,1); (34,72,1);
(42,72,1); (71,72,1); (81,72,1); (88,72,1); (113,72,1); (256,72,1); (22,73,1); (43,73,1); (44,73,1); (82,73,1); (89,73,1); (45,74,1);
(46,74,1); (75,74,1); (83,74,1); (170,74,1); (297,74,1); (26,75,1); (74,75,1); (83,75,1); (84,75,1); (90,75,1); (173,75,1); (63,76,1);
(66,76,1); (67,76,1); (68,76,1); (69,76,1)].
Definition logo_W_1 : list (N * N * N) := [
(77,76,1); (236,76,1); (68,77,1); (69,77,1); (76,77,1); (78,77,1); (127,77,1); (218,77,1); (283,77,1); (69,78,1); (77,78,1); (79,78,1);
(130,78,1); (68,79,1); (78,79,1); (85,79,1); (91,79,1); (70,80,1); (87,80,1); (93,80,1); (194,80,1); (14,81,1); (71,81,1); (72,81,1);
(88,81,1); (334,81,1); (73,82,1); (89,82,1); (95,82,1); (173,82,1); (30,83,1); (46,83,1); (74,83,1); (75,83,1); (84,83,1); (180,83,1);
(75,84,1); (83,84,1); (90,84,1); (96,84,1); (264,84,1); (79,85,1); (86,85,1); (91,85,1); (119,85,1); (85,86,1); (91,86,1); (92,86,1);
(97,86,1); (233,86,1); (18,87,1); (70,87,1); (80,87,1); (93,87,1); (193,87,1); (2,88,1); (72,88,1); (81,88,1); (94,88,1); (99,88,1);
(7,89,1); (73,89,1); (82,89,1); (95,89,1); (244,89,1); (75,90,1); (84,90,1); (96,90,1); (101,90,1); (190,90,1); (79,91,1); (85,91,1);
(86,91,1); (92,91,1); (102,91,1); (86,92,1); (91,92,1); (97,92,1); (102,92,1); (162,92,1); (2,93,1); (80,93,1); (87,93,1); (98,93,1);
(103,93,1); (134,93,1); (137,93,1); (33,94,1); (88,94,1); (99,94,1); (104,94,1); (206,94,1); (8,95,1); (9,95,1); (82,95,1); (89,95,1);
(100,95,1); (84,96,1); (90,96,1); (101,96,1); (152,96,1); (270,96,1); (326,96,1); (86,97,1); (92,97,1); (102,97,1); (162,97,1); (93,98,1);
(103,98,1); (108,98,1); (193,98,1); (295,98,1); (88,99,1); (94,99,1); (104,99,1); (198,99,1); (21,100,1); (95,100,1); (105,100,1); (114,100,1);
(244,100,1); (90,101,1); (96,101,1); (106,101,1); (110,101,1); (126,101,1); (91,102,1); (92,102,1); (97,102,1); (107,102,1); (2,103,1); (93,103,1);
(98,103,1); (108,103,1); (112,103,1); (183,103,1); (249,103,1); (19,104,1); (94,104,1); (99,104,1); (109,104,1); (113,104,1); (100,105,1); (114,105,1);
(118,105,1); (149,105,1); (101,106,1); (110,106,1); (115,106,1); (227,106,1); (102,107,1); (111,107,1); (116,107,1); (119,107,1); (328,107,1); (0,108,1);
(98,108,1); (103,108,1); (112,108,1); (104,109,1); (113,109,1); (117,109,1); (187,109,1); (199,109,1); (46,110,1); (101,110,1); (106,110,1); (115,110,1);
(292,110,1); (107,111,1); (116,111,1); (119,111,1); (192,111,1); (103,112,1); (108,112,1); (120,112,1); (124,112,1); (355,112,1); (72,113,1); (104,113,1);
(109,113,1); (117,113,1); (121,113,1); (151,113,1); (156,113,1); (100,114,1); (105,114,1); (118,114,1); (257,114,1); (106,115,1); (110,115,1); (122,115,1);
(126,115,1); (129,115,1); (147,115,1); (326,115,1); (361,115,1); (373,115,1); (107,116,1); (111,116,1); (119,116,1); (123,116,1); (238,116,1); (289,116,1);
(304,116,1); (109,117,1); (113,117,1); (121,117,1); (128,117,1); (143,117,1); (36,118,1); (43,118,1); (105,118,1); (114,118,1); (125,118,1); (85,119,1);
(107,119,1); (111,119,1); (116,119,1); (123,119,1); (142,119,1); (162,119,1); (112,120,1); (124,120,1); (131,120,1); (158,120,1); (376,120,1); (113,121,1);
(117,121,1); (128,121,1); (348,121,1); (392,121,1); (115,122,1); (126,122,1); (129,122,1); (368,122,1); (116,123,1); (119,123,1); (127,123,1); (130,123,1);
(142,123,1); (112,124,1); (120,124,1); (131,124,1); (204,124,1); (223,124,1); (363,124,1); (118,125,1); (132,125,1); (135,125,1); (138,125,1); (275,125,1);
(101,126,1); (115,126,1); (122,126,1); (129,126,1); (369,126,1); (77,127,1); (123,127,1); (130,127,1); (136,127,1); (254,127,1); (117,128,1); (121,128,1);
(143,128,1); (296,128,1); (115,129,1); (122,129,1); (126,129,1); (181,129,1); (371,129,1); (78,130,1); (123,130,1); (127,130,1); (136,130,1); (139,130,1);
(289,130,1); (120,131,1); (124,131,1); (134,131,1); (137,131,1); (140,131,1); (241,131,1); (125,132,1); (135,132,1); (138,132,1); (200,132,1); (47,133,1);
(150,133,1); (167,133,1); (210,133,1); (313,133,1); (93,134,1); (131,134,1); (137,134,1); (140,134,1); (125,135,1); (132,135,1); (138,135,1); (141,135,1);
(127,136,1); (130,136,1); (139,136,1); (142,136,1); (346,136,1); (93,137,1); (131,137,1); (134,137,1); (140,137,1); (148,137,1); (329,137,1); (125,138,1);
(132,138,1); (135,138,1); (141,138,1); (144,138,1); (209,138,1); (263,138,1); (389,138,1); (130,139,1); (136,139,1); (142,139,1); (145,139,1); (299,139,1);
(131,140,1); (134,140,1); (137,140,1); (148,140,1); (261,140,1); (135,141,1); (138,141,1); (144,141,1); (149,141,1); (344,141,1); (119,142,1); (123,142,1);
(136,142,1); (139,142,1); (145,142,1); (117,143,1); (128,143,1); (146,143,1); (151,143,1); (154,143,1); (280,143,1); (348,143,1); (138,144,1); (141,144,1);
(149,144,1); (176,144,1); (139,145,1); (142,145,1); (153,145,1); (155,145,1); (143,146,1); (151,146,1); (154,146,1); (286,146,1); (325,146,1); (384,146,1);
(386,146,1); (396,146,1); (115,147,1); (152,147,1); (157,147,1); (164,147,1); (226,147,1); (258,147,1); (137,148,1); (140,148,1); (158,148,1); (249,148,1);
(105,149,1); (141,149,1); (144,149,1); (159,149,1); (377,149,1); (52,150,1); (133,150,1); (164,150,1); (167,150,1); (182,150,1); (308,150,1); (113,151,1);
(143,151,1); (146,151,1); (154,151,1); (156,151,1); (388,151,1); (96,152,1); (147,152,1); (157,152,1); (164,152,1); (298,152,1); (145,153,1); (155,153,1);
(160,153,1); (162,153,1); (278,153,1); (143,154,1)].
Definition logo_W_2 : list (N * N * N) := [
(146,154,1); (151,154,1); (156,154,1); (161,154,1); (163,154,1); (250,154,1); (285,154,1); (381,154,1); (398,154,1); (145,155,1); (153,155,1); (160,155,1);
(162,155,1); (254,155,1); (113,156,1); (151,156,1); (154,156,1); (161,156,1); (163,156,1); (262,156,1); (45,157,1); (147,157,1); (152,157,1); (164,157,1);
(303,157,1); (120,158,1); (148,158,1); (165,158,1); (168,158,1); (391,158,1); (149,159,1); (166,159,1); (169,159,1); (417,159,1); (153,160,1); (155,160,1);
(162,160,1); (192,160,1); (304,160,1); (428,160,1); (154,161,1); (156,161,1); (163,161,1); (385,161,1); (395,161,1); (92,162,1); (97,162,1); (119,162,1);
(153,162,1); (155,162,1); (160,162,1); (192,162,1); (154,163,1); (156,163,1); (161,163,1); (325,163,1); (339,163,1); (147,164,1); (150,164,1); (152,164,1);
(157,164,1); (174,164,1); (258,164,1); (158,165,1); (168,165,1); (175,165,1); (315,165,1); (379,165,1); (159,166,1); (169,166,1); (188,166,1); (200,166,1);
(133,167,1); (150,167,1); (182,167,1); (227,167,1); (259,167,1); (341,167,1); (158,168,1); (165,168,1); (175,168,1); (204,168,1); (305,168,1); (159,169,1);
(166,169,1); (188,169,1); (200,169,1); (275,169,1); (281,169,1); (321,169,1); (26,170,1); (35,170,1); (74,170,1); (171,170,1); (177,170,1); (178,170,1);
(180,170,1); (170,171,1); (172,171,1); (178,171,1); (275,171,1); (46,172,1); (171,172,1); (173,172,1); (179,172,1); (191,172,1); (75,173,1); (82,173,1);
(172,173,1); (179,173,1); (180,173,1); (202,173,1); (164,174,1); (182,174,1); (203,174,1); (210,174,1); (349,174,1); (165,175,1); (168,175,1); (204,175,1);
(248,175,1); (437,175,1); (28,176,1); (144,176,1); (177,176,1); (189,176,1); (201,176,1); (170,177,1); (176,177,1); (178,177,1); (226,177,1); (10,178,1);
(11,178,1); (25,178,1); (28,178,1); (37,178,1); (38,178,1); (39,178,1); (170,178,1); (171,178,1); (177,178,1); (25,179,1); (172,179,1); (173,179,1);
(180,179,1); (190,179,1); (83,180,1); (170,180,1); (173,180,1); (179,180,1); (181,180,1); (190,180,1); (23,181,1); (129,181,1); (180,181,1); (190,181,1);
(191,181,1); (201,181,1); (202,181,1); (150,182,1); (167,182,1); (174,182,1); (259,182,1); (390,182,1); (103,183,1); (184,183,1); (194,183,1); (195,183,1);
(42,184,1); (183,184,1); (185,184,1); (193,184,1); (195,184,1); (184,185,1); (186,185,1); (196,185,1); (205,185,1); (1,186,1); (17,186,1); (185,186,1);
(187,186,1); (196,186,1); (197,186,1); (109,187,1); (186,187,1); (197,187,1); (198,187,1); (166,188,1); (169,188,1); (200,188,1); (208,188,1); (269,188,1);
(176,189,1); (201,189,1); (209,189,1); (44,190,1); (90,190,1); (179,190,1); (180,190,1); (181,190,1); (191,190,1); (27,191,1); (172,191,1); (181,191,1);
(190,191,1); (202,191,1); (226,191,1); (312,191,1); (111,192,1); (160,192,1); (162,192,1); (240,192,1); (425,192,1); (87,193,1); (98,193,1); (184,193,1);
(194,193,1); (205,193,1); (222,193,1); (223,193,1); (273,193,1); (0,194,1); (80,194,1); (183,194,1); (193,194,1); (195,194,1); (205,194,1); (42,195,1);
(183,195,1); (184,195,1); (194,195,1); (40,196,1); (185,196,1); (186,196,1); (197,196,1); (1,197,1); (16,197,1); (186,197,1); (187,197,1); (196,197,1);
(198,197,1); (17,198,1); (99,198,1); (187,198,1); (197,198,1); (199,198,1); (206,198,1); (224,198,1); (109,199,1); (198,199,1); (206,199,1); (207,199,1);
(223,199,1); (224,199,1); (310,199,1); (132,200,1); (166,200,1); (169,200,1); (188,200,1); (208,200,1); (225,200,1); (291,200,1); (344,200,1); (8,201,1);
(176,201,1); (181,201,1); (189,201,1); (209,201,1); (244,201,1); (344,201,1); (173,202,1); (181,202,1); (191,202,1); (226,202,1); (365,202,1); (174,203,1);
(210,203,1); (227,203,1); (245,203,1); (271,203,1); (282,203,1); (124,204,1); (168,204,1); (175,204,1); (248,204,1); (261,204,1); (363,204,1); (40,205,1);
(185,205,1); (193,205,1); (194,205,1); (222,205,1); (223,205,1); (71,206,1); (94,206,1); (198,206,1); (199,206,1); (207,206,1); (242,206,1); (274,206,1);
(34,207,1); (199,207,1); (206,207,1); (224,207,1); (242,207,1); (188,208,1); (200,208,1); (225,208,1); (243,208,1); (352,208,1); (356,208,1); (138,209,1);
(189,209,1); (201,209,1); (244,209,1); (401,209,1); (133,210,1); (174,210,1); (203,210,1); (227,210,1); (245,210,1); (252,210,1); (264,210,1); (53,211,1);
(212,211,1); (213,211,1); (228,211,1); (246,211,1); (265,211,1); (313,211,1); (318,211,1); (341,211,1); (53,212,1); (211,212,1); (213,212,1); (229,212,1);
(58,213,1); (211,213,1); (212,213,1); (214,213,1); (230,213,1); (51,214,1); (62,214,1); (213,214,1); (215,214,1); (231,214,1); (50,215,1); (53,215,1);
(214,215,1); (216,215,1); (232,215,1); (254,215,1); (215,216,1); (217,216,1); (231,216,1); (233,216,1); (216,217,1); (218,217,1); (219,217,1); (234,217,1);
(246,217,1); (59,218,1); (69,218,1); (77,218,1); (217,218,1); (219,218,1); (235,218,1); (217,219,1); (218,219,1); (220,219,1); (231,219,1); (236,219,1);
(219,220,1); (221,220,1); (237,220,1); (220,221,1); (231,221,1); (237,221,1); (238,221,1); (239,221,1); (193,222,1); (205,222,1); (223,222,1); (241,222,1);
(249,222,1); (124,223,1); (193,223,1); (199,223,1); (205,223,1); (222,223,1); (241,223,1); (198,224,1); (199,224,1); (207,224,1); (242,224,1); (200,225,1);
(208,225,1); (243,225,1); (444,225,1); (27,226,1)].
Definition logo_W_3 : list (N * N * N) := [
(147,226,1); (177,226,1); (191,226,1); (202,226,1); (252,226,1); (106,227,1); (167,227,1); (203,227,1); (210,227,1); (245,227,1); (276,227,1); (282,227,1);
(361,227,1); (211,228,1); (229,228,1); (234,228,1); (246,228,1); (253,228,1); (293,228,1); (341,228,1); (212,229,1); (228,229,1); (230,229,1); (231,229,1);
(288,229,1); (64,230,1); (213,230,1); (229,230,1); (231,230,1); (232,230,1); (52,231,1); (214,231,1); (216,231,1); (219,231,1); (221,231,1); (229,231,1);
(230,231,1); (232,231,1); (215,232,1); (230,232,1); (231,232,1); (233,232,1); (86,233,1); (216,233,1); (232,233,1); (234,233,1); (288,233,1); (217,234,1);
(228,234,1); (233,234,1); (235,234,1); (218,235,1); (234,235,1); (236,235,1); (272,235,1); (76,236,1); (219,236,1); (235,236,1); (237,236,1); (68,237,1);
(220,237,1); (221,237,1); (236,237,1); (238,237,1); (68,238,1); (116,238,1); (221,238,1); (237,238,1); (239,238,1); (221,239,1); (238,239,1); (247,239,1);
(294,239,1); (192,240,1); (254,240,1); (266,240,1); (278,240,1); (314,240,1); (15,241,1); (131,241,1); (222,241,1); (223,241,1); (249,241,1); (206,242,1);
(207,242,1); (224,242,1); (256,242,1); (208,243,1); (225,243,1); (257,243,1); (263,243,1); (269,243,1); (413,243,1); (25,244,1); (89,244,1); (100,244,1);
(201,244,1); (209,244,1); (251,244,1); (275,244,1); (281,244,1); (203,245,1); (210,245,1); (227,245,1); (276,245,1); (282,245,1); (298,245,1); (322,245,1);
(211,246,1); (217,246,1); (228,246,1); (253,246,1); (265,246,1); (65,247,1); (239,247,1); (254,247,1); (260,247,1); (283,247,1); (175,248,1); (204,248,1);
(255,248,1); (261,248,1); (319,248,1); (103,249,1); (148,249,1); (222,249,1); (241,249,1); (255,249,1); (154,250,1); (280,250,1); (286,250,1); (296,250,1);
(364,250,1); (244,251,1); (275,251,1); (281,251,1); (344,251,1); (210,252,1); (226,252,1); (258,252,1); (264,252,1); (270,252,1); (228,253,1); (246,253,1);
(265,253,1); (277,253,1); (293,253,1); (64,254,1); (127,254,1); (155,254,1); (215,254,1); (240,254,1); (247,254,1); (260,254,1); (272,254,1); (248,255,1);
(249,255,1); (267,255,1); (273,255,1); (72,256,1); (242,256,1); (262,256,1); (268,256,1); (114,257,1); (243,257,1); (263,257,1); (269,257,1); (321,257,1);
(423,257,1); (147,258,1); (164,258,1); (252,258,1); (264,258,1); (270,258,1); (297,258,1); (368,258,1); (51,259,1); (167,259,1); (182,259,1); (271,259,1);
(277,259,1); (293,259,1); (247,260,1); (254,260,1); (272,260,1); (350,260,1); (140,261,1); (204,261,1); (248,261,1); (284,261,1); (300,261,1); (379,261,1);
(19,262,1); (156,262,1); (256,262,1); (268,262,1); (274,262,1); (320,262,1); (138,263,1); (243,263,1); (257,263,1); (269,263,1); (423,263,1); (84,264,1);
(210,264,1); (252,264,1); (258,264,1); (270,264,1); (370,264,1); (211,265,1); (246,265,1); (253,265,1); (277,265,1); (288,265,1); (240,266,1); (278,266,1);
(289,266,1); (328,266,1); (255,267,1); (273,267,1); (279,267,1); (300,267,1); (5,268,1); (19,268,1); (256,268,1); (262,268,1); (274,268,1); (285,268,1);
(188,269,1); (243,269,1); (257,269,1); (263,269,1); (291,269,1); (404,269,1); (30,270,1); (96,270,1); (252,270,1); (258,270,1); (264,270,1); (372,270,1);
(51,271,1); (203,271,1); (259,271,1); (293,271,1); (298,271,1); (353,271,1); (235,272,1); (254,272,1); (260,272,1); (283,272,1); (304,272,1); (193,273,1);
(255,273,1); (267,273,1); (279,273,1); (295,273,1); (206,274,1); (262,274,1); (268,274,1); (285,274,1); (290,274,1); (125,275,1); (169,275,1); (171,275,1);
(244,275,1); (251,275,1); (281,275,1); (227,276,1); (245,276,1); (282,276,1); (303,276,1); (371,276,1); (253,277,1); (259,277,1); (265,277,1); (288,277,1);
(153,278,1); (240,278,1); (266,278,1); (289,278,1); (309,278,1); (475,278,1); (267,279,1); (273,279,1); (295,279,1); (300,279,1); (403,279,1); (143,280,1);
(250,280,1); (286,280,1); (296,280,1); (301,280,1); (321,280,1); (399,280,1); (37,281,1); (169,281,1); (244,281,1); (251,281,1); (275,281,1); (203,282,1);
(227,282,1); (245,282,1); (276,282,1); (297,282,1); (298,282,1); (322,282,1); (77,283,1); (247,283,1); (272,283,1); (294,283,1); (299,283,1); (261,284,1);
(305,284,1); (319,284,1); (406,284,1); (154,285,1); (268,285,1); (274,285,1); (290,285,1); (306,285,1); (146,286,1); (250,286,1); (280,286,1); (296,286,1);
(301,286,1); (306,286,1); (356,286,1); (292,287,1); (297,287,1); (302,287,1); (331,287,1); (371,287,1); (60,288,1); (229,288,1); (233,288,1); (265,288,1);
(277,288,1); (308,288,1); (336,288,1); (390,288,1); (116,289,1); (130,289,1); (266,289,1); (278,289,1); (309,289,1); (314,289,1); (402,289,1); (418,289,1);
(475,289,1); (274,290,1); (285,290,1); (310,290,1); (385,290,1); (200,291,1); (269,291,1); (311,291,1); (316,291,1); (321,291,1); (335,291,1); (339,291,1);
(504,291,1); (110,292,1); (287,292,1); (297,292,1); (302,292,1); (228,293,1); (253,293,1); (259,293,1); (271,293,1); (298,293,1); (303,293,1); (331,293,1);
(239,294,1); (283,294,1); (299,294,1); (304,294,1); (358,294,1); (98,295,1); (273,295,1); (279,295,1); (300,295,1); (315,295,1); (128,296,1); (250,296,1);
(280,296,1); (286,296,1); (301,296,1); (306,296,1); (311,296,1); (395,296,1); (74,297,1); (258,297,1); (282,297,1); (287,297,1); (292,297,1); (302,297,1);
(340,297,1); (370,297,1); (152,298,1); (245,298,1)].
Definition logo_W_4 : list (N * N * N) := [
(271,298,1); (282,298,1); (293,298,1); (303,298,1); (332,298,1); (431,298,1); (139,299,1); (283,299,1); (294,299,1); (304,299,1); (261,300,1); (267,300,1);
(279,300,1); (295,300,1); (315,300,1); (351,300,1); (280,301,1); (286,301,1); (296,301,1); (306,301,1); (316,301,1); (287,302,1); (292,302,1); (297,302,1);
(307,302,1); (312,302,1); (317,302,1); (49,303,1); (157,303,1); (276,303,1); (293,303,1); (298,303,1); (327,303,1); (353,303,1); (66,304,1); (116,304,1);
(160,304,1); (272,304,1); (294,304,1); (299,304,1); (328,304,1); (168,305,1); (284,305,1); (319,305,1); (324,305,1); (476,305,1); (285,306,1); (286,306,1);
(296,306,1); (301,306,1); (316,306,1); (325,306,1); (302,307,1); (312,307,1); (317,307,1); (322,307,1); (150,308,1); (288,308,1); (313,308,1); (318,308,1);
(323,308,1); (353,308,1); (278,309,1); (289,309,1); (314,309,1); (337,309,1); (432,309,1); (199,310,1); (290,310,1); (320,310,1); (334,310,1); (397,310,1);
(291,311,1); (296,311,1); (316,311,1); (321,311,1); (413,311,1); (444,311,1); (191,312,1); (302,312,1); (307,312,1); (317,312,1); (326,312,1); (133,313,1);
(211,313,1); (308,313,1); (318,313,1); (323,313,1); (240,314,1); (289,314,1); (309,314,1); (337,314,1); (350,314,1); (358,314,1); (165,315,1); (295,315,1);
(300,315,1); (329,315,1); (410,315,1); (291,316,1); (301,316,1); (306,316,1); (311,316,1); (321,316,1); (352,316,1); (302,317,1); (307,317,1); (312,317,1);
(326,317,1); (340,317,1); (211,318,1); (308,318,1); (313,318,1); (323,318,1); (332,318,1); (341,318,1); (378,318,1); (414,318,1); (424,318,1); (248,319,1);
(284,319,1); (305,319,1); (324,319,1); (333,319,1); (347,319,1); (262,320,1); (310,320,1); (334,320,1); (343,320,1); (169,321,1); (257,321,1); (280,321,1);
(291,321,1); (311,321,1); (316,321,1); (352,321,1); (356,321,1); (360,321,1); (387,321,1); (388,321,1); (245,322,1); (282,322,1); (307,322,1); (331,322,1);
(349,322,1); (357,322,1); (368,322,1); (308,323,1); (313,323,1); (318,323,1); (327,323,1); (332,323,1); (341,323,1); (305,324,1); (319,324,1); (333,324,1);
(347,324,1); (433,324,1); (146,325,1); (163,325,1); (306,325,1); (330,325,1); (339,325,1); (352,325,1); (45,326,1); (96,326,1); (115,326,1); (312,326,1);
(317,326,1); (340,326,1); (303,327,1); (323,327,1); (336,327,1); (345,327,1); (349,327,1); (374,327,1); (450,327,1); (107,328,1); (266,328,1); (304,328,1);
(346,328,1); (350,328,1); (375,328,1); (137,329,1); (315,329,1); (338,329,1); (351,329,1); (325,330,1); (339,330,1); (348,330,1); (380,330,1); (387,330,1);
(407,330,1); (287,331,1); (293,331,1); (322,331,1); (349,331,1); (361,331,1); (48,332,1); (298,332,1); (318,332,1); (323,332,1); (341,332,1); (469,332,1);
(319,333,1); (324,333,1); (347,333,1); (81,334,1); (310,334,1); (320,334,1); (343,334,1); (360,334,1); (291,335,1); (344,335,1); (377,335,1); (401,335,1);
(444,335,1); (288,336,1); (327,336,1); (345,336,1); (353,336,1); (357,336,1); (361,336,1); (309,337,1); (314,337,1); (342,337,1); (354,337,1); (358,337,1);
(428,337,1); (329,338,1); (351,338,1); (355,338,1); (359,338,1); (416,338,1); (163,339,1); (291,339,1); (325,339,1); (330,339,1); (348,339,1); (297,340,1);
(317,340,1); (326,340,1); (365,340,1); (366,340,1); (167,341,1); (211,341,1); (228,341,1); (318,341,1); (323,341,1); (332,341,1); (435,341,1); (337,342,1);
(354,342,1); (358,342,1); (415,342,1); (443,342,1); (320,343,1); (334,343,1); (360,343,1); (380,343,1); (141,344,1); (200,344,1); (201,344,1); (251,344,1);
(335,344,1); (377,344,1); (401,344,1); (481,344,1); (327,345,1); (336,345,1); (353,345,1); (357,345,1); (414,345,1); (474,345,1); (136,346,1); (328,346,1);
(350,346,1); (362,346,1); (319,347,1); (324,347,1); (333,347,1); (379,347,1); (406,347,1); (513,347,1); (121,348,1); (143,348,1); (330,348,1); (339,348,1);
(360,348,1); (392,348,1); (423,348,1); (174,349,1); (322,349,1); (327,349,1); (331,349,1); (361,349,1); (367,349,1); (374,349,1); (260,350,1); (314,350,1);
(328,350,1); (346,350,1); (362,350,1); (375,350,1); (409,350,1); (300,351,1); (329,351,1); (338,351,1); (355,351,1); (359,351,1); (208,352,1); (316,352,1);
(321,352,1); (325,352,1); (356,352,1); (389,352,1); (400,352,1); (407,352,1); (271,353,1); (303,353,1); (308,353,1); (336,353,1); (345,353,1); (357,353,1);
(372,353,1); (506,353,1); (337,354,1); (342,354,1); (358,354,1); (447,354,1); (456,354,1); (593,354,1); (112,355,1); (338,355,1); (351,355,1); (359,355,1);
(363,355,1); (406,355,1); (208,356,1); (286,356,1); (321,356,1); (352,356,1); (364,356,1); (389,356,1); (407,356,1); (420,356,1); (322,357,1); (336,357,1);
(345,357,1); (353,357,1); (469,357,1); (294,358,1); (314,358,1); (337,358,1); (342,358,1); (354,358,1); (338,359,1); (351,359,1); (355,359,1); (363,359,1);
(376,359,1); (499,359,1); (321,360,1); (334,360,1); (343,360,1); (348,360,1); (364,360,1); (400,360,1); (115,361,1); (227,361,1); (331,361,1); (336,361,1);
(349,361,1); (372,361,1); (373,361,1); (374,361,1); (346,362,1); (350,362,1); (375,362,1); (402,362,1); (456,362,1); (503,362,1); (582,362,1); (124,363,1);
(204,363,1); (355,363,1); (359,363,1); (376,363,1); (422,363,1); (448,363,1); (250,364,1); (356,364,1); (360,364,1); (387,364,1); (388,364,1); (400,364,1);
(202,365,1); (340,365,1); (366,365,1); (367,365,1)].
Definition logo_W_5 : list (N * N * N) := [
(340,366,1); (365,366,1); (367,366,1); (368,366,1); (349,367,1); (365,367,1); (366,367,1); (368,367,1); (369,367,1); (374,367,1); (122,368,1); (258,368,1);
(322,368,1); (366,368,1); (367,368,1); (369,368,1); (370,368,1); (126,369,1); (367,369,1); (368,369,1); (370,369,1); (371,369,1); (264,370,1); (297,370,1);
(368,370,1); (369,370,1); (371,370,1); (374,370,1); (129,371,1); (276,371,1); (287,371,1); (369,371,1); (370,371,1); (372,371,1); (435,371,1); (270,372,1);
(353,372,1); (361,372,1); (371,372,1); (373,372,1); (115,373,1); (361,373,1); (372,373,1); (374,373,1); (411,373,1); (327,374,1); (349,374,1); (361,374,1);
(367,374,1); (370,374,1); (373,374,1); (328,375,1); (350,375,1); (362,375,1); (402,375,1); (120,376,1); (359,376,1); (363,376,1); (391,376,1); (403,376,1);
(149,377,1); (335,377,1); (344,377,1); (401,377,1); (404,377,1); (318,378,1); (390,378,1); (405,378,1); (408,378,1); (165,379,1); (261,379,1); (347,379,1);
(406,379,1); (419,379,1); (457,379,1); (499,379,1); (330,380,1); (343,380,1); (381,380,1); (392,380,1); (393,380,1); (154,381,1); (380,381,1); (382,381,1);
(392,381,1); (393,381,1); (381,382,1); (383,382,1); (387,382,1); (393,382,1); (394,382,1); (382,383,1); (384,383,1); (394,383,1); (395,383,1); (397,383,1);
(146,384,1); (383,384,1); (385,384,1); (393,384,1); (395,384,1); (396,384,1); (400,384,1); (161,385,1); (290,385,1); (384,385,1); (386,385,1); (396,385,1);
(397,385,1); (146,386,1); (385,386,1); (387,386,1); (397,386,1); (398,386,1); (321,387,1); (330,387,1); (364,387,1); (382,387,1); (386,387,1); (394,387,1);
(398,387,1); (399,387,1); (151,388,1); (321,388,1); (364,388,1); (399,388,1); (400,388,1); (138,389,1); (352,389,1); (356,389,1); (398,389,1); (407,389,1);
(182,390,1); (288,390,1); (378,390,1); (405,390,1); (408,390,1); (421,390,1); (158,391,1); (376,391,1); (403,391,1); (410,391,1); (416,391,1); (422,391,1);
(121,392,1); (348,392,1); (380,392,1); (381,392,1); (393,392,1); (380,393,1); (381,393,1); (382,393,1); (384,393,1); (392,393,1); (394,393,1); (382,394,1);
(383,394,1); (387,394,1); (393,394,1); (395,394,1); (161,395,1); (296,395,1); (383,395,1); (384,395,1); (394,395,1); (396,395,1); (146,396,1); (384,396,1);
(385,396,1); (395,396,1); (397,396,1); (310,397,1); (383,397,1); (385,397,1); (386,397,1); (396,397,1); (398,397,1); (154,398,1); (386,398,1); (387,398,1);
(389,398,1); (397,398,1); (399,398,1); (280,399,1); (387,399,1); (388,399,1); (398,399,1); (413,399,1); (352,400,1); (360,400,1); (364,400,1); (384,400,1);
(388,400,1); (209,401,1); (335,401,1); (344,401,1); (377,401,1); (404,401,1); (417,401,1); (289,402,1); (362,402,1); (375,402,1); (418,402,1); (428,402,1);
(279,403,1); (376,403,1); (391,403,1); (410,403,1); (416,403,1); (494,403,1); (269,404,1); (377,404,1); (401,404,1); (417,404,1); (444,404,1); (490,404,1);
(378,405,1); (390,405,1); (408,405,1); (421,405,1); (446,405,1); (284,406,1); (347,406,1); (355,406,1); (379,406,1); (416,406,1); (419,406,1); (422,406,1);
(466,406,1); (513,406,1); (537,406,1); (330,407,1); (352,407,1); (356,407,1); (389,407,1); (413,407,1); (423,407,1); (569,407,1); (378,408,1); (390,408,1);
(405,408,1); (421,408,1); (497,408,1); (350,409,1); (412,409,1); (415,409,1); (425,409,1); (315,410,1); (391,410,1); (403,410,1); (416,410,1); (508,410,1);
(373,411,1); (414,411,1); (424,411,1); (435,411,1); (479,411,1); (409,412,1); (415,412,1); (425,412,1); (582,412,1); (243,413,1); (311,413,1); (399,413,1);
(407,413,1); (423,413,1); (426,413,1); (554,413,1); (318,414,1); (345,414,1); (411,414,1); (424,414,1); (435,414,1); (479,414,1); (342,415,1); (409,415,1);
(412,415,1); (425,415,1); (338,416,1); (391,416,1); (403,416,1); (406,416,1); (410,416,1); (159,417,1); (401,417,1); (404,417,1); (420,417,1); (430,417,1);
(620,417,1); (289,418,1); (402,418,1); (428,418,1); (436,418,1); (379,419,1); (406,419,1); (422,419,1); (429,419,1); (356,420,1); (417,420,1); (427,420,1);
(430,420,1); (462,420,1); (390,421,1); (405,421,1); (408,421,1); (431,421,1); (474,421,1); (363,422,1); (391,422,1); (406,422,1); (419,422,1); (429,422,1);
(440,422,1); (257,423,1); (263,423,1); (348,423,1); (407,423,1); (413,423,1); (426,423,1); (444,423,1); (538,423,1); (576,423,1); (318,424,1); (411,424,1);
(414,424,1); (435,424,1); (442,424,1); (192,425,1); (409,425,1); (412,425,1); (415,425,1); (432,425,1); (436,425,1); (451,425,1); (465,425,1); (413,426,1);
(423,426,1); (444,426,1); (591,426,1); (420,427,1); (430,427,1); (434,427,1); (438,427,1); (603,427,1); (612,427,1); (160,428,1); (337,428,1); (402,428,1);
(418,428,1); (436,428,1); (470,428,1); (662,428,1); (688,428,1); (419,429,1); (422,429,1); (440,429,1); (537,429,1); (417,430,1); (420,430,1); (427,430,1);
(434,430,1); (468,430,1); (298,431,1); (421,431,1); (439,431,1); (442,431,1); (446,431,1); (309,432,1); (425,432,1); (443,432,1); (447,432,1); (597,432,1);
(647,432,1); (324,433,1); (437,433,1); (448,433,1); (452,433,1); (471,433,1); (427,434,1); (430,434,1); (438,434,1); (441,434,1); (458,434,1); (341,435,1);
(371,435,1); (411,435,1); (414,435,1); (424,435,1); (442,435,1); (469,435,1); (418,436,1); (425,436,1); (428,436,1); (465,436,1); (507,436,1); (175,437,1);
(433,437,1); (448,437,1); (452,437,1); (494,437,1)].
Definition logo_W_6 : list (N * N * N) := [
(427,438,1); (434,438,1); (441,438,1); (640,438,1); (431,439,1); (446,439,1); (450,439,1); (542,439,1); (543,439,1); (422,440,1); (429,440,1); (461,440,1);
(485,440,1); (434,441,1); (438,441,1); (445,441,1); (490,441,1); (577,441,1); (620,441,1); (424,442,1); (431,442,1); (435,442,1); (469,442,1); (585,442,1);
(342,443,1); (432,443,1); (447,443,1); (451,443,1); (456,443,1); (475,443,1); (225,444,1); (311,444,1); (335,444,1); (404,444,1); (423,444,1); (426,444,1);
(462,444,1); (441,445,1); (449,445,1); (453,445,1); (468,445,1); (477,445,1); (577,445,1); (607,445,1); (616,445,1); (405,446,1); (431,446,1); (439,446,1);
(450,446,1); (455,446,1); (460,446,1); (497,446,1); (354,447,1); (432,447,1); (443,447,1); (451,447,1); (456,447,1); (475,447,1); (363,448,1); (433,448,1);
(437,448,1); (452,448,1); (457,448,1); (445,449,1); (453,449,1); (454,449,1); (495,449,1); (580,449,1); (656,449,1); (327,450,1); (439,450,1); (446,450,1);
(455,450,1); (460,450,1); (534,450,1); (557,450,1); (425,451,1); (443,451,1); (447,451,1); (456,451,1); (475,451,1); (433,452,1); (437,452,1); (448,452,1);
(457,452,1); (499,452,1); (445,453,1); (449,453,1); (454,453,1); (458,453,1); (584,453,1); (640,453,1); (449,454,1); (453,454,1); (458,454,1); (459,454,1);
(599,454,1); (446,455,1); (450,455,1); (460,455,1); (543,455,1); (354,456,1); (362,456,1); (443,456,1); (447,456,1); (451,456,1); (475,456,1); (379,457,1);
(448,457,1); (452,457,1); (471,457,1); (476,457,1); (434,458,1); (453,458,1); (454,458,1); (459,458,1); (630,458,1); (454,459,1); (458,459,1); (463,459,1);
(467,459,1); (492,459,1); (626,459,1); (446,460,1); (450,460,1); (455,460,1); (474,460,1); (479,460,1); (534,460,1); (726,460,1); (440,461,1); (466,461,1);
(480,461,1); (658,461,1); (420,462,1); (444,462,1); (481,462,1); (490,462,1); (532,462,1); (587,462,1); (459,463,1); (464,463,1); (467,463,1); (463,464,1);
(467,464,1); (468,464,1); (472,464,1); (486,464,1); (621,464,1); (425,465,1); (436,465,1); (470,465,1); (484,465,1); (493,465,1); (704,465,1); (406,466,1);
(461,466,1); (480,466,1); (489,466,1); (609,466,1); (459,467,1); (463,467,1); (464,467,1); (468,467,1); (641,467,1); (430,468,1); (445,468,1); (464,468,1);
(467,468,1); (472,468,1); (473,468,1); (641,468,1); (656,468,1); (332,469,1); (357,469,1); (435,469,1); (442,469,1); (488,469,1); (497,469,1); (596,469,1);
(428,470,1); (465,470,1); (484,470,1); (493,470,1); (433,471,1); (457,471,1); (476,471,1); (485,471,1); (464,472,1); (468,472,1); (473,472,1); (477,472,1);
(533,472,1); (468,473,1); (472,473,1); (477,473,1); (478,473,1); (630,473,1); (636,473,1); (345,474,1); (421,474,1); (460,474,1); (479,474,1); (488,474,1);
(278,475,1); (289,475,1); (443,475,1); (447,475,1); (451,475,1); (456,475,1); (484,475,1); (305,476,1); (457,476,1); (471,476,1); (485,476,1); (618,476,1);
(445,477,1); (472,477,1); (473,477,1); (478,477,1); (473,478,1); (477,478,1); (482,478,1); (483,478,1); (621,478,1); (411,479,1); (414,479,1); (460,479,1);
(474,479,1); (488,479,1); (542,479,1); (461,480,1); (466,480,1); (485,480,1); (489,480,1); (494,480,1); (508,480,1); (623,480,1); (672,480,1); (344,481,1);
(462,481,1); (490,481,1); (495,481,1); (504,481,1); (599,481,1); (478,482,1); (483,482,1); (486,482,1); (656,482,1); (717,482,1); (478,483,1); (482,483,1);
(486,483,1); (487,483,1); (555,483,1); (465,484,1); (470,484,1); (475,484,1); (493,484,1); (498,484,1); (736,484,1); (440,485,1); (471,485,1); (476,485,1);
(480,485,1); (494,485,1); (499,485,1); (623,485,1); (464,486,1); (482,486,1); (483,486,1); (487,486,1); (491,486,1); (682,486,1); (483,487,1); (486,487,1);
(491,487,1); (596,487,1); (669,487,1); (777,487,1); (469,488,1); (474,488,1); (479,488,1); (506,488,1); (543,488,1); (466,489,1); (480,489,1); (494,489,1);
(499,489,1); (508,489,1); (404,490,1); (441,490,1); (462,490,1); (481,490,1); (495,490,1); (504,490,1); (486,491,1); (487,491,1); (492,491,1); (496,491,1);
(459,492,1); (491,492,1); (496,492,1); (500,492,1); (777,492,1); (465,493,1); (470,493,1); (484,493,1); (498,493,1); (502,493,1); (549,493,1); (652,493,1);
(403,494,1); (437,494,1); (480,494,1); (485,494,1); (489,494,1); (508,494,1); (575,494,1); (449,495,1); (481,495,1); (490,495,1); (504,495,1); (573,495,1);
(491,496,1); (492,496,1); (500,496,1); (651,496,1); (665,496,1); (669,496,1); (408,497,1); (446,497,1); (469,497,1); (534,497,1); (574,497,1); (588,497,1);
(484,498,1); (493,498,1); (502,498,1); (507,498,1); (536,498,1); (733,498,1); (359,499,1); (379,499,1); (452,499,1); (485,499,1); (489,499,1); (513,499,1);
(537,499,1); (553,499,1); (492,500,1); (496,500,1); (501,500,1); (570,500,1); (600,500,1); (717,500,1); (500,501,1); (505,501,1); (509,501,1); (650,501,1);
(493,502,1); (498,502,1); (507,502,1); (571,502,1); (362,503,1); (512,503,1); (536,503,1); (567,503,1); (291,504,1); (481,504,1); (490,504,1); (495,504,1);
(501,505,1); (509,505,1); (533,505,1); (555,505,1); (353,506,1); (488,506,1); (540,506,1); (556,506,1); (724,506,1); (436,507,1); (498,507,1); (502,507,1);
(511,507,1); (589,507,1); (410,508,1); (480,508,1); (489,508,1); (494,508,1); (575,508,1); (586,508,1); (501,509,1); (505,509,1); (510,509,1); (533,509,1);
(682,509,1); (509,510,1); (533,510,1); (539,510,1)].
Definition logo_W_7 : list (N * N * N) := [
(555,510,1); (777,510,1); (507,511,1); (535,511,1); (552,511,1); (605,511,1); (503,512,1); (536,512,1); (567,512,1); (593,512,1); (347,513,1); (406,513,1);
(499,513,1); (537,513,1); (553,513,1); (515,514,1); (516,514,1); (523,514,1); (568,514,1); (572,514,1); (606,514,1); (690,514,1); (514,515,1); (516,515,1);
(517,515,1); (520,515,1); (568,515,1); (514,516,1); (515,516,1); (517,516,1); (518,516,1); (697,516,1); (515,517,1); (516,517,1); (518,517,1); (519,517,1);
(524,517,1); (516,518,1); (517,518,1); (519,518,1); (520,518,1); (707,518,1); (709,518,1); (517,519,1); (518,519,1); (520,519,1); (521,519,1); (696,519,1);
(515,520,1); (518,520,1); (519,520,1); (521,520,1); (522,520,1); (523,520,1); (519,521,1); (520,521,1); (522,521,1); (523,521,1); (606,521,1); (520,522,1);
(521,522,1); (523,522,1); (524,522,1); (527,522,1); (514,523,1); (520,523,1); (521,523,1); (522,523,1); (524,523,1); (525,523,1); (686,523,1); (517,524,1);
(522,524,1); (523,524,1); (525,524,1); (526,524,1); (750,524,1); (523,525,1); (524,525,1); (526,525,1); (527,525,1); (812,525,1); (524,526,1); (525,526,1);
(527,526,1); (528,526,1); (693,526,1); (522,527,1); (525,527,1); (526,527,1); (528,527,1); (529,527,1); (654,527,1); (526,528,1); (527,528,1); (529,528,1);
(530,528,1); (654,528,1); (527,529,1); (528,529,1); (530,529,1); (587,529,1); (528,530,1); (529,530,1); (531,530,1); (779,530,1); (530,531,1); (532,531,1);
(538,531,1); (659,531,1); (824,531,1); (462,532,1); (531,532,1); (538,532,1); (554,532,1); (722,532,1); (472,533,1); (505,533,1); (509,533,1); (510,533,1);
(539,533,1); (596,533,1); (723,533,1); (450,534,1); (460,534,1); (497,534,1); (574,534,1); (578,534,1); (585,534,1); (511,535,1); (548,535,1); (551,535,1);
(552,535,1); (730,535,1); (498,536,1); (503,536,1); (512,536,1); (567,536,1); (571,536,1); (406,537,1); (429,537,1); (499,537,1); (513,537,1); (553,537,1);
(586,537,1); (423,538,1); (531,538,1); (532,538,1); (554,538,1); (576,538,1); (587,538,1); (746,538,1); (510,539,1); (533,539,1); (555,539,1); (570,539,1);
(581,539,1); (596,539,1); (506,540,1); (541,540,1); (556,540,1); (557,540,1); (540,541,1); (542,541,1); (556,541,1); (557,541,1); (734,541,1); (811,541,1);
(439,542,1); (479,542,1); (541,542,1); (543,542,1); (558,542,1); (725,542,1); (439,543,1); (455,543,1); (488,543,1); (542,543,1); (544,543,1); (559,543,1);
(578,543,1); (745,543,1); (543,544,1); (545,544,1); (556,544,1); (560,544,1); (544,545,1); (546,545,1); (561,545,1); (718,545,1); (735,545,1); (795,545,1);
(545,546,1); (547,546,1); (562,546,1); (565,546,1); (728,546,1); (730,546,1); (546,547,1); (548,547,1); (563,547,1); (535,548,1); (547,548,1); (549,548,1);
(552,548,1); (564,548,1); (493,549,1); (548,549,1); (550,549,1); (565,549,1); (566,549,1); (738,549,1); (549,550,1); (551,550,1); (566,550,1); (719,550,1);
(730,550,1); (732,550,1); (535,551,1); (550,551,1); (552,551,1); (703,551,1); (737,551,1); (511,552,1); (535,552,1); (548,552,1); (551,552,1); (684,552,1);
(499,553,1); (513,553,1); (537,553,1); (586,553,1); (663,553,1); (752,553,1); (413,554,1); (532,554,1); (538,554,1); (576,554,1); (587,554,1); (668,554,1);
(483,555,1); (505,555,1); (510,555,1); (539,555,1); (570,555,1); (617,555,1); (747,555,1); (506,556,1); (540,556,1); (541,556,1); (544,556,1); (557,556,1);
(574,556,1); (683,556,1); (450,557,1); (540,557,1); (541,557,1); (556,557,1); (558,557,1); (741,557,1); (542,558,1); (557,558,1); (559,558,1); (564,558,1);
(811,558,1); (543,559,1); (558,559,1); (560,559,1); (755,559,1); (544,560,1); (559,560,1); (561,560,1); (778,560,1); (545,561,1); (560,561,1); (562,561,1);
(724,561,1); (733,561,1); (546,562,1); (561,562,1); (563,562,1); (803,562,1); (547,563,1); (562,563,1); (564,563,1); (719,563,1); (548,564,1); (558,564,1);
(563,564,1); (565,564,1); (546,565,1); (549,565,1); (564,565,1); (566,565,1); (549,566,1); (550,566,1); (565,566,1); (597,566,1); (729,566,1); (503,567,1);
(512,567,1); (536,567,1); (571,567,1); (675,567,1); (514,568,1); (515,568,1); (572,568,1); (579,568,1); (583,568,1); (763,568,1); (407,569,1); (573,569,1);
(577,569,1); (580,569,1); (604,569,1); (500,570,1); (539,570,1); (555,570,1); (581,570,1); (660,570,1); (502,571,1); (536,571,1); (567,571,1); (582,571,1);
(680,571,1); (514,572,1); (568,572,1); (579,572,1); (583,572,1); (697,572,1); (495,573,1); (569,573,1); (577,573,1); (580,573,1); (497,574,1); (534,574,1);
(556,574,1); (578,574,1); (585,574,1); (617,574,1); (494,575,1); (508,575,1); (609,575,1); (742,575,1); (762,575,1); (423,576,1); (538,576,1); (554,576,1);
(587,576,1); (767,576,1); (441,577,1); (445,577,1); (569,577,1); (573,577,1); (580,577,1); (584,577,1); (620,577,1); (534,578,1); (543,578,1); (574,578,1);
(585,578,1); (627,578,1); (637,578,1); (568,579,1); (572,579,1); (583,579,1); (594,579,1); (629,579,1); (449,580,1); (569,580,1); (573,580,1); (577,580,1);
(584,580,1); (595,580,1); (539,581,1); (570,581,1); (585,581,1); (588,581,1); (592,581,1); (596,581,1); (362,582,1); (412,582,1); (571,582,1); (589,582,1);
(593,582,1); (568,583,1); (572,583,1); (579,583,1); (590,583,1); (619,583,1); (706,583,1); (709,583,1); (453,584,1); (577,584,1); (580,584,1); (591,584,1);
(442,585,1); (534,585,1); (574,585,1); (578,585,1)].
Definition logo_W_8 : list (N * N * N) := [
(581,585,1); (642,585,1); (661,585,1); (687,585,1); (508,586,1); (537,586,1); (553,586,1); (614,586,1); (462,587,1); (529,587,1); (538,587,1); (554,587,1);
(576,587,1); (615,587,1); (763,587,1); (767,587,1); (497,588,1); (581,588,1); (592,588,1); (596,588,1); (600,588,1); (665,588,1); (507,589,1); (582,589,1);
(593,589,1); (597,589,1); (671,589,1); (583,590,1); (594,590,1); (598,590,1); (709,590,1); (426,591,1); (584,591,1); (595,591,1); (599,591,1); (611,591,1);
(581,592,1); (588,592,1); (596,592,1); (600,592,1); (637,592,1); (679,592,1); (702,592,1); (354,593,1); (512,593,1); (582,593,1); (589,593,1); (597,593,1);
(601,593,1); (662,593,1); (579,594,1); (590,594,1); (598,594,1); (602,594,1); (693,594,1); (696,594,1); (580,595,1); (591,595,1); (599,595,1); (603,595,1);
(469,596,1); (487,596,1); (533,596,1); (539,596,1); (581,596,1); (588,596,1); (592,596,1); (600,596,1); (646,596,1); (661,596,1); (432,597,1); (566,597,1);
(589,597,1); (593,597,1); (601,597,1); (605,597,1); (613,597,1); (590,598,1); (594,598,1); (602,598,1); (606,598,1); (714,598,1); (454,599,1); (481,599,1);
(591,599,1); (595,599,1); (603,599,1); (500,600,1); (588,600,1); (592,600,1); (596,600,1); (679,600,1); (593,601,1); (597,601,1); (605,601,1); (613,601,1);
(671,601,1); (684,601,1); (594,602,1); (598,602,1); (606,602,1); (610,602,1); (629,602,1); (427,603,1); (595,603,1); (599,603,1); (604,603,1); (607,603,1);
(630,603,1); (569,604,1); (603,604,1); (607,604,1); (608,604,1); (611,604,1); (511,605,1); (597,605,1); (601,605,1); (613,605,1); (514,606,1); (521,606,1);
(598,606,1); (602,606,1); (610,606,1); (445,607,1); (603,607,1); (604,607,1); (608,607,1); (604,608,1); (607,608,1); (611,608,1); (620,608,1); (466,609,1);
(575,609,1); (618,609,1); (623,609,1); (628,609,1); (602,610,1); (606,610,1); (619,610,1); (697,610,1); (591,611,1); (604,611,1); (608,611,1); (612,611,1);
(427,612,1); (611,612,1); (616,612,1); (620,612,1); (597,613,1); (601,613,1); (605,613,1); (633,613,1); (586,614,1); (643,614,1); (648,614,1); (766,614,1);
(844,614,1); (587,615,1); (639,615,1); (644,615,1); (767,615,1); (781,615,1); (445,616,1); (612,616,1); (620,616,1); (621,616,1); (555,617,1); (574,617,1);
(622,617,1); (627,617,1); (632,617,1); (476,618,1); (609,618,1); (623,618,1); (628,618,1); (638,618,1); (791,618,1); (583,619,1); (610,619,1); (624,619,1);
(629,619,1); (634,619,1); (417,620,1); (441,620,1); (577,620,1); (608,620,1); (612,620,1); (616,620,1); (621,620,1); (625,620,1); (631,620,1); (635,620,1);
(464,621,1); (478,621,1); (616,621,1); (620,621,1); (625,621,1); (626,621,1); (655,621,1); (617,622,1); (627,622,1); (632,622,1); (683,622,1); (847,622,1);
(480,623,1); (485,623,1); (609,623,1); (618,623,1); (628,623,1); (638,623,1); (619,624,1); (629,624,1); (634,624,1); (706,624,1); (620,625,1); (621,625,1);
(626,625,1); (630,625,1); (459,626,1); (621,626,1); (625,626,1); (630,626,1); (631,626,1); (578,627,1); (617,627,1); (622,627,1); (632,627,1); (637,627,1);
(761,627,1); (609,628,1); (618,628,1); (623,628,1); (638,628,1); (836,628,1); (579,629,1); (602,629,1); (619,629,1); (624,629,1); (634,629,1); (458,630,1);
(473,630,1); (603,630,1); (625,630,1); (626,630,1); (631,630,1); (635,630,1); (636,630,1); (620,631,1); (626,631,1); (630,631,1); (635,631,1); (636,631,1);
(617,632,1); (622,632,1); (627,632,1); (637,632,1); (646,632,1); (678,632,1); (758,632,1); (613,633,1); (647,633,1); (652,633,1); (738,633,1); (619,634,1);
(624,634,1); (629,634,1); (828,634,1); (620,635,1); (630,635,1); (631,635,1); (636,635,1); (640,635,1); (473,636,1); (630,636,1); (631,636,1); (635,636,1);
(640,636,1); (641,636,1); (578,637,1); (592,637,1); (627,637,1); (632,637,1); (646,637,1); (661,637,1); (687,637,1); (618,638,1); (623,638,1); (628,638,1);
(667,638,1); (796,638,1); (615,639,1); (644,639,1); (649,639,1); (654,639,1); (763,639,1); (793,639,1); (801,639,1); (438,640,1); (453,640,1); (635,640,1);
(636,640,1); (641,640,1); (645,640,1); (467,641,1); (468,641,1); (636,641,1); (640,641,1); (645,641,1); (585,642,1); (679,642,1); (683,642,1); (754,642,1);
(814,642,1); (614,643,1); (648,643,1); (653,643,1); (658,643,1); (663,643,1); (615,644,1); (639,644,1); (649,644,1); (654,644,1); (716,644,1); (829,644,1);
(863,644,1); (640,645,1); (641,645,1); (650,645,1); (596,646,1); (632,646,1); (637,646,1); (661,646,1); (683,646,1); (432,647,1); (633,647,1); (652,647,1);
(657,647,1); (614,648,1); (643,648,1); (653,648,1); (658,648,1); (791,648,1); (639,649,1); (644,649,1); (654,649,1); (659,649,1); (753,649,1); (763,649,1);
(770,649,1); (501,650,1); (645,650,1); (651,650,1); (655,650,1); (678,650,1); (496,651,1); (650,651,1); (655,651,1); (656,651,1); (493,652,1); (633,652,1);
(647,652,1); (657,652,1); (662,652,1); (643,653,1); (648,653,1); (658,653,1); (663,653,1); (762,653,1); (527,654,1); (528,654,1); (639,654,1); (644,654,1);
(649,654,1); (659,654,1); (697,654,1); (701,654,1); (825,654,1); (621,655,1); (650,655,1); (651,655,1); (656,655,1); (660,655,1); (449,656,1); (468,656,1);
(482,656,1); (651,656,1); (655,656,1); (660,656,1); (665,656,1); (647,657,1); (652,657,1); (662,657,1); (737,657,1); (461,658,1); (643,658,1); (648,658,1);
(653,658,1); (663,658,1); (672,658,1); (685,658,1)].
Definition logo_W_9 : list (N * N * N) := [
(531,659,1); (649,659,1); (654,659,1); (664,659,1); (668,659,1); (673,659,1); (781,659,1); (570,660,1); (655,660,1); (656,660,1); (665,660,1); (585,661,1);
(596,661,1); (637,661,1); (646,661,1); (670,661,1); (687,661,1); (428,662,1); (593,662,1); (652,662,1); (657,662,1); (666,662,1); (671,662,1); (720,662,1);
(553,663,1); (643,663,1); (653,663,1); (658,663,1); (672,663,1); (836,663,1); (659,664,1); (668,664,1); (673,664,1); (740,664,1); (782,664,1); (496,665,1);
(588,665,1); (656,665,1); (660,665,1); (669,665,1); (662,666,1); (671,666,1); (680,666,1); (721,666,1); (738,666,1); (638,667,1); (676,667,1); (689,667,1);
(752,667,1); (554,668,1); (659,668,1); (664,668,1); (673,668,1); (838,668,1); (487,669,1); (496,669,1); (665,669,1); (674,669,1); (678,669,1); (747,669,1);
(661,670,1); (687,670,1); (702,670,1); (748,670,1); (830,670,1); (589,671,1); (601,671,1); (662,671,1); (666,671,1); (675,671,1); (680,671,1); (480,672,1);
(658,672,1); (663,672,1); (685,672,1); (705,672,1); (659,673,1); (664,673,1); (668,673,1); (686,673,1); (701,673,1); (716,673,1); (793,673,1); (669,674,1);
(678,674,1); (682,674,1); (810,674,1); (567,675,1); (671,675,1); (680,675,1); (684,675,1); (667,676,1); (689,676,1); (742,676,1); (853,676,1); (866,676,1);
(681,677,1); (690,677,1); (691,677,1); (792,677,1); (632,678,1); (650,678,1); (669,678,1); (674,678,1); (682,678,1); (592,679,1); (600,679,1); (642,679,1);
(683,679,1); (741,679,1); (761,679,1); (765,679,1); (778,679,1); (571,680,1); (666,680,1); (671,680,1); (675,680,1); (684,680,1); (719,680,1); (677,681,1);
(690,681,1); (706,681,1); (709,681,1); (486,682,1); (509,682,1); (674,682,1); (678,682,1); (717,682,1); (556,683,1); (622,683,1); (642,683,1); (646,683,1);
(679,683,1); (741,683,1); (748,683,1); (758,683,1); (803,683,1); (811,683,1); (822,683,1); (552,684,1); (601,684,1); (675,684,1); (680,684,1); (688,684,1);
(658,685,1); (672,685,1); (705,685,1); (739,685,1); (791,685,1); (808,685,1); (849,685,1); (523,686,1); (673,686,1); (701,686,1); (740,686,1); (825,686,1);
(585,687,1); (637,687,1); (661,687,1); (670,687,1); (702,687,1); (428,688,1); (684,688,1); (703,688,1); (704,688,1); (667,689,1); (676,689,1); (742,689,1);
(762,689,1); (514,690,1); (677,690,1); (681,690,1); (691,690,1); (706,690,1); (708,690,1); (711,690,1); (715,690,1); (746,690,1); (677,691,1); (690,691,1);
(692,691,1); (706,691,1); (707,691,1); (714,691,1); (691,692,1); (693,692,1); (698,692,1); (707,692,1); (708,692,1); (526,693,1); (594,693,1); (692,693,1);
(694,693,1); (708,693,1); (709,693,1); (693,694,1); (695,694,1); (709,694,1); (710,694,1); (712,694,1); (820,694,1); (694,695,1); (696,695,1); (710,695,1);
(711,695,1); (779,695,1); (519,696,1); (594,696,1); (695,696,1); (697,696,1); (711,696,1); (712,696,1); (828,696,1); (516,697,1); (572,697,1); (610,697,1);
(654,697,1); (696,697,1); (698,697,1); (699,697,1); (712,697,1); (713,697,1); (746,697,1); (816,697,1); (692,698,1); (697,698,1); (699,698,1); (713,698,1);
(714,698,1); (715,698,1); (697,699,1); (698,699,1); (700,699,1); (714,699,1); (715,699,1); (699,700,1); (715,700,1); (716,700,1); (740,700,1); (805,700,1);
(654,701,1); (673,701,1); (686,701,1); (740,701,1); (838,701,1); (592,702,1); (670,702,1); (687,702,1); (741,702,1); (751,702,1); (826,702,1); (843,702,1);
(551,703,1); (688,703,1); (704,703,1); (720,703,1); (721,703,1); (733,703,1); (465,704,1); (688,704,1); (703,704,1); (721,704,1); (672,705,1); (685,705,1);
(739,705,1); (815,705,1); (583,706,1); (624,706,1); (681,706,1); (690,706,1); (691,706,1); (707,706,1); (518,707,1); (691,707,1); (692,707,1); (706,707,1);
(708,707,1); (690,708,1); (692,708,1); (693,708,1); (707,708,1); (709,708,1); (518,709,1); (583,709,1); (590,709,1); (681,709,1); (693,709,1); (694,709,1);
(708,709,1); (710,709,1); (694,710,1); (695,710,1); (709,710,1); (711,710,1); (820,710,1); (690,711,1); (695,711,1); (696,711,1); (710,711,1); (712,711,1);
(694,712,1); (696,712,1); (697,712,1); (711,712,1); (713,712,1); (722,712,1); (697,713,1); (698,713,1); (712,713,1); (714,713,1); (824,713,1); (845,713,1);
(854,713,1); (598,714,1); (691,714,1); (698,714,1); (699,714,1); (713,714,1); (715,714,1); (716,714,1); (690,715,1); (698,715,1); (699,715,1); (700,715,1);
(714,715,1); (644,716,1); (673,716,1); (700,716,1); (714,716,1); (722,716,1); (743,716,1); (746,716,1); (482,717,1); (500,717,1); (682,717,1); (723,717,1);
(744,717,1); (747,717,1); (545,718,1); (719,718,1); (720,718,1); (735,718,1); (736,718,1); (737,718,1); (550,719,1); (563,719,1); (680,719,1); (718,719,1);
(720,719,1); (737,719,1); (738,719,1); (662,720,1); (703,720,1); (718,720,1); (719,720,1); (721,720,1); (738,720,1); (666,721,1); (703,721,1); (704,721,1);
(720,721,1); (532,722,1); (712,722,1); (716,722,1); (743,722,1); (746,722,1); (863,722,1); (533,723,1); (717,723,1); (744,723,1); (747,723,1); (506,724,1);
(561,724,1); (725,724,1); (726,724,1); (731,724,1); (745,724,1); (755,724,1); (861,724,1); (542,725,1); (724,725,1); (726,725,1); (727,725,1); (745,725,1);
(460,726,1); (724,726,1); (725,726,1); (727,726,1); (728,726,1); (725,727,1); (726,727,1); (728,727,1); (729,727,1); (778,727,1); (823,727,1); (546,728,1);
(726,728,1); (727,728,1); (729,728,1); (730,728,1)].
Definition logo_W_10 : list (N * N * N) := [
(795,728,1); (566,729,1); (727,729,1); (728,729,1); (730,729,1); (731,729,1); (535,730,1); (546,730,1); (550,730,1); (728,730,1); (729,730,1); (731,730,1);
(732,730,1); (724,731,1); (729,731,1); (730,731,1); (732,731,1); (733,731,1); (550,732,1); (730,732,1); (731,732,1); (733,732,1); (734,732,1); (755,732,1);
(498,733,1); (561,733,1); (703,733,1); (731,733,1); (732,733,1); (734,733,1); (541,734,1); (732,734,1); (733,734,1); (735,734,1); (545,735,1); (718,735,1);
(734,735,1); (736,735,1); (484,736,1); (718,736,1); (735,736,1); (737,736,1); (551,737,1); (657,737,1); (718,737,1); (719,737,1); (736,737,1); (738,737,1);
(549,738,1); (633,738,1); (666,738,1); (719,738,1); (720,738,1); (737,738,1); (685,739,1); (705,739,1); (749,739,1); (844,739,1); (896,739,1); (664,740,1);
(686,740,1); (700,740,1); (701,740,1); (750,740,1); (793,740,1); (841,740,1); (557,741,1); (679,741,1); (683,741,1); (702,741,1); (748,741,1); (758,741,1);
(843,741,1); (575,742,1); (676,742,1); (689,742,1); (752,742,1); (762,742,1); (716,743,1); (722,743,1); (746,743,1); (816,743,1); (717,744,1); (723,744,1);
(747,744,1); (810,744,1); (543,745,1); (724,745,1); (725,745,1); (755,745,1); (765,745,1); (538,746,1); (690,746,1); (697,746,1); (716,746,1); (722,746,1);
(743,746,1); (750,746,1); (763,746,1); (797,746,1); (555,747,1); (669,747,1); (717,747,1); (723,747,1); (744,747,1); (764,747,1); (965,747,1); (670,748,1);
(683,748,1); (741,748,1); (758,748,1); (790,748,1); (814,748,1); (827,748,1); (856,748,1); (739,749,1); (756,749,1); (759,749,1); (766,749,1); (956,749,1);
(524,750,1); (740,750,1); (746,750,1); (753,750,1); (757,750,1); (829,750,1); (702,751,1); (754,751,1); (761,751,1); (764,751,1); (790,751,1); (839,751,1);
(901,751,1); (553,752,1); (667,752,1); (742,752,1); (762,752,1); (791,752,1); (649,753,1); (750,753,1); (757,753,1); (760,753,1); (781,753,1); (642,754,1);
(751,754,1); (761,754,1); (790,754,1); (818,754,1); (559,755,1); (724,755,1); (732,755,1); (745,755,1); (765,755,1); (778,755,1); (890,755,1); (749,756,1);
(759,756,1); (766,756,1); (808,756,1); (750,757,1); (753,757,1); (760,757,1); (767,757,1); (793,757,1); (931,757,1); (632,758,1); (683,758,1); (741,758,1);
(748,758,1); (814,758,1); (818,758,1); (944,758,1); (749,759,1); (756,759,1); (766,759,1); (896,759,1); (963,759,1); (753,760,1); (757,760,1); (767,760,1);
(769,760,1); (816,760,1); (833,760,1); (627,761,1); (679,761,1); (751,761,1); (754,761,1); (790,761,1); (799,761,1); (575,762,1); (653,762,1); (689,762,1);
(742,762,1); (752,762,1); (791,762,1); (800,762,1); (866,762,1); (568,763,1); (587,763,1); (639,763,1); (649,763,1); (746,763,1); (779,763,1); (792,763,1);
(747,764,1); (751,764,1); (777,764,1); (794,764,1); (679,765,1); (745,765,1); (755,765,1); (778,765,1); (795,765,1); (827,765,1); (614,766,1); (749,766,1);
(756,766,1); (759,766,1); (796,766,1); (804,766,1); (808,766,1); (576,767,1); (587,767,1); (615,767,1); (757,767,1); (760,767,1); (780,767,1); (797,767,1);
(769,768,1); (780,768,1); (781,768,1); (793,768,1); (855,768,1); (760,769,1); (768,769,1); (770,769,1); (781,769,1); (782,769,1); (1009,769,1); (649,770,1);
(769,770,1); (771,770,1); (782,770,1); (783,770,1); (873,770,1); (986,770,1); (770,771,1); (772,771,1); (783,771,1); (784,771,1); (1005,771,1); (771,772,1);
(773,772,1); (784,772,1); (785,772,1); (883,772,1); (900,772,1); (772,773,1); (774,773,1); (785,773,1); (786,773,1); (798,773,1); (773,774,1); (775,774,1);
(786,774,1); (787,774,1); (793,774,1); (838,774,1); (774,775,1); (787,775,1); (788,775,1); (1014,775,1); (788,776,1); (789,776,1); (798,776,1); (817,776,1);
(487,777,1); (492,777,1); (510,777,1); (764,777,1); (794,777,1); (810,777,1); (983,777,1); (1002,777,1); (560,778,1); (679,778,1); (727,778,1); (755,778,1);
(765,778,1); (795,778,1); (530,779,1); (695,779,1); (763,779,1); (792,779,1); (812,779,1); (872,779,1); (767,780,1); (768,780,1); (781,780,1); (793,780,1);
(979,780,1); (1001,780,1); (615,781,1); (659,781,1); (753,781,1); (768,781,1); (769,781,1); (780,781,1); (782,781,1); (793,781,1); (801,781,1); (968,781,1);
(664,782,1); (769,782,1); (770,782,1); (781,782,1); (783,782,1); (825,782,1); (770,783,1); (771,783,1); (782,783,1); (784,783,1); (786,783,1); (771,784,1);
(772,784,1); (783,784,1); (785,784,1); (821,784,1); (772,785,1); (773,785,1); (784,785,1); (786,785,1); (888,785,1); (773,786,1); (774,786,1); (783,786,1);
(785,786,1); (787,786,1); (834,786,1); (906,786,1); (774,787,1); (775,787,1); (786,787,1); (788,787,1); (813,787,1); (968,787,1); (1027,787,1); (775,788,1);
(776,788,1); (787,788,1); (913,788,1); (776,789,1); (798,789,1); (802,789,1); (825,789,1); (748,790,1); (751,790,1); (754,790,1); (761,790,1); (799,790,1);
(810,790,1); (618,791,1); (648,791,1); (685,791,1); (752,791,1); (762,791,1); (800,791,1); (677,792,1); (763,792,1); (779,792,1); (805,792,1); (812,792,1);
(1012,792,1); (639,793,1); (673,793,1); (740,793,1); (757,793,1); (768,793,1); (774,793,1); (780,793,1); (781,793,1); (893,793,1); (764,794,1); (777,794,1);
(810,794,1); (822,794,1); (879,794,1); (545,795,1); (728,795,1); (765,795,1); (778,795,1); (803,795,1); (807,795,1); (908,795,1); (638,796,1); (766,796,1);
(804,796,1); (808,796,1); (984,796,1); (746,797,1)].
Definition logo_W_11 : list (N * N * N) := [
(767,797,1); (801,797,1); (805,797,1); (809,797,1); (846,797,1); (978,797,1); (773,798,1); (776,798,1); (789,798,1); (802,798,1); (806,798,1); (893,798,1);
(761,799,1); (790,799,1); (814,799,1); (818,799,1); (826,799,1); (935,799,1); (762,800,1); (791,800,1); (815,800,1); (819,800,1); (639,801,1); (781,801,1);
(797,801,1); (805,801,1); (809,801,1); (899,801,1); (789,802,1); (798,802,1); (806,802,1); (813,802,1); (817,802,1); (851,802,1); (562,803,1); (683,803,1);
(795,803,1); (807,803,1); (811,803,1); (944,803,1); (766,804,1); (796,804,1); (808,804,1); (832,804,1); (836,804,1); (840,804,1); (858,804,1); (700,805,1);
(792,805,1); (797,805,1); (801,805,1); (809,805,1); (838,805,1); (798,806,1); (802,806,1); (813,806,1); (817,806,1); (842,806,1); (795,807,1); (803,807,1);
(811,807,1); (973,807,1); (685,808,1); (756,808,1); (766,808,1); (796,808,1); (804,808,1); (832,808,1); (1025,808,1); (797,809,1); (801,809,1); (805,809,1);
(828,809,1); (833,809,1); (838,809,1); (982,809,1); (674,810,1); (744,810,1); (777,810,1); (790,810,1); (794,810,1); (830,810,1); (965,810,1); (541,811,1);
(558,811,1); (683,811,1); (803,811,1); (807,811,1); (823,811,1); (827,811,1); (525,812,1); (779,812,1); (792,812,1); (816,812,1); (820,812,1); (824,812,1);
(997,812,1); (787,813,1); (802,813,1); (806,813,1); (817,813,1); (642,814,1); (748,814,1); (758,814,1); (799,814,1); (839,814,1); (857,814,1); (874,814,1);
(705,815,1); (800,815,1); (819,815,1); (836,815,1); (697,816,1); (743,816,1); (760,816,1); (812,816,1); (820,816,1); (824,816,1); (841,816,1); (960,816,1);
(776,817,1); (802,817,1); (806,817,1); (813,817,1); (834,817,1); (878,817,1); (754,818,1); (758,818,1); (799,818,1); (822,818,1); (826,818,1); (835,818,1);
(856,818,1); (800,819,1); (815,819,1); (836,819,1); (984,819,1); (694,820,1); (710,820,1); (812,820,1); (816,820,1); (824,820,1); (828,820,1); (978,820,1);
(784,821,1); (825,821,1); (829,821,1); (838,821,1); (990,821,1); (683,822,1); (794,822,1); (818,822,1); (826,822,1); (835,822,1); (727,823,1); (811,823,1);
(827,823,1); (831,823,1); (531,824,1); (713,824,1); (812,824,1); (816,824,1); (820,824,1); (828,824,1); (654,825,1); (686,825,1); (782,825,1); (789,825,1);
(821,825,1); (829,825,1); (838,825,1); (846,825,1); (958,825,1); (1014,825,1); (702,826,1); (799,826,1); (818,826,1); (822,826,1); (835,826,1); (870,826,1);
(748,827,1); (765,827,1); (811,827,1); (823,827,1); (831,827,1); (634,828,1); (696,828,1); (809,828,1); (820,828,1); (824,828,1); (837,828,1); (841,828,1);
(644,829,1); (750,829,1); (821,829,1); (825,829,1); (838,829,1); (846,829,1); (855,829,1); (859,829,1); (931,829,1); (1014,829,1); (670,830,1); (810,830,1);
(847,830,1); (852,830,1); (860,830,1); (1010,830,1); (823,831,1); (827,831,1); (848,831,1); (966,831,1); (804,832,1); (808,832,1); (849,832,1); (853,832,1);
(977,832,1); (1046,832,1); (760,833,1); (809,833,1); (850,833,1); (859,833,1); (878,833,1); (945,833,1); (975,833,1); (786,834,1); (817,834,1); (842,834,1);
(851,834,1); (990,834,1); (818,835,1); (822,835,1); (826,835,1); (839,835,1); (843,835,1); (628,836,1); (663,836,1); (804,836,1); (815,836,1); (819,836,1);
(840,836,1); (844,836,1); (828,837,1); (841,837,1); (845,837,1); (854,837,1); (921,837,1); (668,838,1); (701,838,1); (774,838,1); (805,838,1); (809,838,1);
(821,838,1); (825,838,1); (829,838,1); (846,838,1); (863,838,1); (899,838,1); (975,838,1); (751,839,1); (814,839,1); (835,839,1); (870,839,1); (885,839,1);
(804,840,1); (836,840,1); (844,840,1); (853,840,1); (866,840,1); (740,841,1); (816,841,1); (828,841,1); (837,841,1); (845,841,1); (854,841,1); (985,841,1);
(806,842,1); (834,842,1); (851,842,1); (855,842,1); (924,842,1); (1067,842,1); (702,843,1); (741,843,1); (835,843,1); (852,843,1); (856,843,1); (972,843,1);
(614,844,1); (739,844,1); (836,844,1); (840,844,1); (853,844,1); (866,844,1); (713,845,1); (837,845,1); (841,845,1); (854,845,1); (1061,845,1); (797,846,1);
(825,846,1); (829,846,1); (838,846,1); (873,846,1); (906,846,1); (622,847,1); (830,847,1); (860,847,1); (869,847,1); (884,847,1); (894,847,1); (831,848,1);
(857,848,1); (861,848,1); (885,848,1); (1045,848,1); (685,849,1); (832,849,1); (858,849,1); (862,849,1); (977,849,1); (833,850,1); (859,850,1); (863,850,1);
(868,850,1); (888,850,1); (982,850,1); (1042,850,1); (1066,850,1); (802,851,1); (834,851,1); (842,851,1); (855,851,1); (864,851,1); (873,851,1); (830,852,1);
(843,852,1); (856,852,1); (865,852,1); (870,852,1); (935,852,1); (676,853,1); (832,853,1); (840,853,1); (844,853,1); (866,853,1); (936,853,1); (713,854,1);
(837,854,1); (841,854,1); (845,854,1); (768,855,1); (829,855,1); (842,855,1); (851,855,1); (864,855,1); (873,855,1); (937,855,1); (748,856,1); (818,856,1);
(843,856,1); (852,856,1); (865,856,1); (874,856,1); (814,857,1); (848,857,1); (861,857,1); (875,857,1); (1029,857,1); (1088,857,1); (804,858,1); (849,858,1);
(862,858,1); (871,858,1); (886,858,1); (891,858,1); (829,859,1); (833,859,1); (850,859,1); (863,859,1); (868,859,1); (1064,859,1); (830,860,1); (847,860,1);
(869,860,1); (879,860,1); (1033,860,1); (724,861,1); (848,861,1); (857,861,1); (875,861,1); (880,861,1); (849,862,1); (858,862,1); (871,862,1); (876,862,1);
(1025,862,1); (1093,862,1); (1121,862,1); (644,863,1)].
Definition logo_W_12 : list (N * N * N) := [
(722,863,1); (838,863,1); (850,863,1); (859,863,1); (868,863,1); (953,863,1); (851,864,1); (855,864,1); (873,864,1); (961,864,1); (1005,864,1); (852,865,1);
(856,865,1); (874,865,1); (901,865,1); (987,865,1); (676,866,1); (762,866,1); (840,866,1); (844,866,1); (853,866,1); (872,867,1); (877,867,1); (882,867,1);
(850,868,1); (859,868,1); (863,868,1); (893,868,1); (1048,868,1); (1076,868,1); (847,869,1); (860,869,1); (879,869,1); (884,869,1); (935,869,1); (1002,869,1);
(826,870,1); (839,870,1); (852,870,1); (885,870,1); (901,870,1); (915,870,1); (1034,870,1); (1039,870,1); (1089,870,1); (1090,870,1); (858,871,1); (862,871,1);
(876,871,1); (881,871,1); (910,871,1); (779,872,1); (867,872,1); (877,872,1); (882,872,1); (1000,872,1); (770,873,1); (846,873,1); (851,873,1); (855,873,1);
(864,873,1); (814,874,1); (856,874,1); (865,874,1); (895,874,1); (901,874,1); (857,875,1); (861,875,1); (880,875,1); (890,875,1); (980,875,1); (995,875,1);
(1057,875,1); (862,876,1); (871,876,1); (881,876,1); (886,876,1); (917,876,1); (984,876,1); (1104,876,1); (867,877,1); (872,877,1); (882,877,1); (887,877,1);
(957,877,1); (817,878,1); (833,878,1); (883,878,1); (888,878,1); (893,878,1); (912,878,1); (922,878,1); (1022,878,1); (794,879,1); (860,879,1); (869,879,1);
(884,879,1); (889,879,1); (1028,879,1); (1038,879,1); (861,880,1); (875,880,1); (890,880,1); (1024,880,1); (871,881,1); (876,881,1); (886,881,1); (891,881,1);
(917,881,1); (1011,881,1); (1016,881,1); (1120,881,1); (867,882,1); (872,882,1); (877,882,1); (887,882,1); (892,882,1); (919,882,1); (989,882,1); (772,883,1);
(878,883,1); (888,883,1); (893,883,1); (905,883,1); (847,884,1); (869,884,1); (879,884,1); (889,884,1); (894,884,1); (901,884,1); (907,884,1); (839,885,1);
(848,885,1); (870,885,1); (915,885,1); (962,885,1); (983,885,1); (1089,885,1); (1092,885,1); (858,886,1); (876,886,1); (881,886,1); (891,886,1); (897,886,1);
(1007,886,1); (877,887,1); (882,887,1); (892,887,1); (898,887,1); (996,887,1); (1123,887,1); (785,888,1); (850,888,1); (878,888,1); (883,888,1); (893,888,1);
(1005,888,1); (879,889,1); (884,889,1); (894,889,1); (998,889,1); (755,890,1); (875,890,1); (880,890,1); (908,890,1); (969,890,1); (1085,890,1); (858,891,1);
(881,891,1); (886,891,1); (897,891,1); (1058,891,1); (882,892,1); (887,892,1); (898,892,1); (904,892,1); (1094,892,1); (793,893,1); (798,893,1); (868,893,1);
(878,893,1); (883,893,1); (888,893,1); (937,893,1); (945,893,1); (982,893,1); (1009,893,1); (847,894,1); (884,894,1); (889,894,1); (907,894,1); (914,894,1);
(1128,894,1); (874,895,1); (901,895,1); (935,895,1); (962,895,1); (1002,895,1); (739,896,1); (759,896,1); (902,896,1); (916,896,1); (936,896,1); (886,897,1);
(891,897,1); (903,897,1); (909,897,1); (927,897,1); (887,898,1); (892,898,1); (904,898,1); (911,898,1); (1053,898,1); (801,899,1); (838,899,1); (905,899,1);
(912,899,1); (922,899,1); (964,899,1); (772,900,1); (906,900,1); (913,900,1); (923,900,1); (1096,900,1); (751,901,1); (865,901,1); (870,901,1); (874,901,1);
(884,901,1); (895,901,1); (935,901,1); (896,902,1); (916,902,1); (936,902,1); (897,903,1); (909,903,1); (910,903,1); (1121,903,1); (892,904,1); (898,904,1);
(911,904,1); (974,904,1); (1008,904,1); (883,905,1); (899,905,1); (912,905,1); (922,905,1); (1012,905,1); (786,906,1); (846,906,1); (900,906,1); (913,906,1);
(923,906,1); (924,906,1); (884,907,1); (894,907,1); (914,907,1); (925,907,1); (1023,907,1); (1116,907,1); (795,908,1); (890,908,1); (926,908,1); (944,908,1);
(1003,908,1); (1039,908,1); (897,909,1); (903,909,1); (910,909,1); (1035,909,1); (1071,909,1); (871,910,1); (903,910,1); (909,910,1); (917,910,1); (1072,910,1);
(898,911,1); (904,911,1); (921,911,1); (981,911,1); (1122,911,1); (878,912,1); (899,912,1); (905,912,1); (922,912,1); (931,912,1); (1066,912,1); (788,913,1);
(900,913,1); (906,913,1); (923,913,1); (924,913,1); (1001,913,1); (894,914,1); (907,914,1); (925,914,1); (1023,914,1); (870,915,1); (885,915,1); (962,915,1);
(987,915,1); (991,915,1); (896,916,1); (902,916,1); (936,916,1); (956,916,1); (876,917,1); (881,917,1); (910,917,1); (918,917,1); (920,917,1); (927,917,1);
(917,918,1); (919,918,1); (927,918,1); (928,918,1); (1123,918,1); (882,919,1); (918,919,1); (928,919,1); (929,919,1); (1030,919,1); (917,920,1); (921,920,1);
(929,920,1); (930,920,1); (837,921,1); (911,921,1); (920,921,1); (930,921,1); (960,921,1); (878,922,1); (899,922,1); (905,922,1); (912,922,1); (931,922,1);
(945,922,1); (1042,922,1); (900,923,1); (906,923,1); (913,923,1); (924,923,1); (932,923,1); (948,923,1); (1113,923,1); (842,924,1); (906,924,1); (913,924,1);
(923,924,1); (932,924,1); (1109,924,1); (907,925,1); (914,925,1); (934,925,1); (1100,925,1); (1126,925,1); (908,926,1); (944,926,1); (952,926,1); (897,927,1);
(917,927,1); (918,927,1); (928,927,1); (918,928,1); (919,928,1); (927,928,1); (929,928,1); (1070,928,1); (1103,928,1); (1104,928,1); (919,929,1); (920,929,1);
(928,929,1); (930,929,1); (1101,929,1); (1102,929,1); (1104,929,1); (920,930,1); (921,930,1); (929,930,1); (1094,930,1); (757,931,1); (829,931,1); (912,931,1);
(922,931,1); (945,931,1); (954,931,1); (1026,931,1); (1064,931,1); (923,932,1); (924,932,1); (938,932,1); (1097,932,1); (934,933,1); (942,933,1); (943,933,1);
(1069,933,1); (925,934,1); (933,934,1); (943,934,1)].
Definition logo_W_13 : list (N * N * N) := [
(983,934,1); (799,935,1); (852,935,1); (869,935,1); (895,935,1); (901,935,1); (955,935,1); (1051,935,1); (853,936,1); (896,936,1); (902,936,1); (916,936,1);
(956,936,1); (963,936,1); (855,937,1); (893,937,1); (954,937,1); (958,937,1); (961,937,1); (964,937,1); (1009,937,1); (932,938,1); (939,938,1); (946,938,1);
(1037,938,1); (1109,938,1); (938,939,1); (940,939,1); (946,939,1); (1014,939,1); (1043,939,1); (1069,939,1); (939,940,1); (946,940,1); (947,940,1); (948,940,1);
(1097,940,1); (942,941,1); (943,941,1); (949,941,1); (950,941,1); (951,941,1); (1114,941,1); (1125,941,1); (933,942,1); (941,942,1); (943,942,1); (947,942,1);
(951,942,1); (933,943,1); (934,943,1); (941,943,1); (942,943,1); (758,944,1); (803,944,1); (908,944,1); (926,944,1); (952,944,1); (959,944,1); (833,945,1);
(893,945,1); (922,945,1); (931,945,1); (954,945,1); (1017,945,1); (938,946,1); (939,946,1); (940,946,1); (947,946,1); (1117,946,1); (940,947,1); (942,947,1);
(946,947,1); (948,947,1); (1080,947,1); (1111,947,1); (1115,947,1); (923,948,1); (940,948,1); (947,948,1); (949,948,1); (1068,948,1); (1080,948,1); (941,949,1);
(948,949,1); (950,949,1); (1096,949,1); (941,950,1); (949,950,1); (951,950,1); (1044,950,1); (941,951,1); (942,951,1); (950,951,1); (1116,951,1); (926,952,1);
(944,952,1); (959,952,1); (1088,952,1); (863,953,1); (957,953,1); (960,953,1); (967,953,1); (931,954,1); (937,954,1); (945,954,1); (964,954,1); (1075,954,1);
(935,955,1); (965,955,1); (972,955,1); (1006,955,1); (749,956,1); (916,956,1); (936,956,1); (963,956,1); (877,957,1); (953,957,1); (960,957,1); (967,957,1);
(978,957,1); (825,958,1); (937,958,1); (961,958,1); (968,958,1); (971,958,1); (997,958,1); (1005,958,1); (1049,958,1); (944,959,1); (952,959,1); (966,959,1);
(1091,959,1); (1092,959,1); (816,960,1); (921,960,1); (953,960,1); (957,960,1); (967,960,1); (970,960,1); (1004,960,1); (864,961,1); (937,961,1); (958,961,1);
(968,961,1); (993,961,1); (885,962,1); (895,962,1); (915,962,1); (987,962,1); (1006,962,1); (759,963,1); (936,963,1); (956,963,1); (977,963,1); (1020,963,1);
(899,964,1); (937,964,1); (954,964,1); (971,964,1); (975,964,1); (1008,964,1); (747,965,1); (810,965,1); (955,965,1); (972,965,1); (976,965,1); (1083,965,1);
(831,966,1); (959,966,1); (969,966,1); (973,966,1); (987,966,1); (953,967,1); (957,967,1); (960,967,1); (978,967,1); (989,967,1); (1077,967,1); (781,968,1);
(787,968,1); (958,968,1); (961,968,1); (979,968,1); (1027,968,1); (890,969,1); (966,969,1); (973,969,1); (980,969,1); (960,970,1); (974,970,1); (981,970,1);
(1075,970,1); (958,971,1); (964,971,1); (975,971,1); (982,971,1); (1008,971,1); (1036,971,1); (843,972,1); (955,972,1); (965,972,1); (976,972,1); (983,972,1);
(1057,972,1); (807,973,1); (966,973,1); (969,973,1); (980,973,1); (987,973,1); (904,974,1); (970,974,1); (981,974,1); (985,974,1); (833,975,1); (838,975,1);
(964,975,1); (971,975,1); (982,975,1); (1063,975,1); (965,976,1); (972,976,1); (983,976,1); (1050,976,1); (1083,976,1); (832,977,1); (849,977,1); (963,977,1);
(984,977,1); (988,977,1); (797,978,1); (820,978,1); (957,978,1); (967,978,1); (989,978,1); (780,979,1); (968,979,1); (986,979,1); (990,979,1); (1013,979,1);
(1079,979,1); (875,980,1); (969,980,1); (973,980,1); (991,980,1); (995,980,1); (911,981,1); (970,981,1); (974,981,1); (985,981,1); (809,982,1); (850,982,1);
(893,982,1); (971,982,1); (975,982,1); (993,982,1); (997,982,1); (1075,982,1); (777,983,1); (885,983,1); (934,983,1); (972,983,1); (976,983,1); (994,983,1);
(796,984,1); (819,984,1); (876,984,1); (977,984,1); (988,984,1); (999,984,1); (841,985,1); (974,985,1); (981,985,1); (992,985,1); (770,986,1); (979,986,1);
(990,986,1); (1001,986,1); (865,987,1); (915,987,1); (962,987,1); (966,987,1); (973,987,1); (1006,987,1); (1087,987,1); (977,988,1); (984,988,1); (999,988,1);
(1007,988,1); (1093,988,1); (882,989,1); (967,989,1); (978,989,1); (993,989,1); (1004,989,1); (1008,989,1); (1053,989,1); (821,990,1); (834,990,1); (979,990,1);
(986,990,1); (1001,990,1); (915,991,1); (980,991,1); (995,991,1); (1003,991,1); (1006,991,1); (1089,991,1); (985,992,1); (996,992,1); (1000,992,1); (1004,992,1);
(1054,992,1); (1072,992,1); (961,993,1); (982,993,1); (989,993,1); (997,993,1); (1013,993,1); (983,994,1); (998,994,1); (1002,994,1); (1068,994,1); (1083,994,1);
(875,995,1); (980,995,1); (991,995,1); (1003,995,1); (1015,995,1); (887,996,1); (992,996,1); (1000,996,1); (1004,996,1); (1008,996,1); (1036,996,1); (812,997,1);
(958,997,1); (982,997,1); (993,997,1); (1013,997,1); (1074,997,1); (889,998,1); (994,998,1); (1002,998,1); (1010,998,1); (1033,998,1); (1050,998,1); (1084,998,1);
(984,999,1); (988,999,1); (1007,999,1); (1011,999,1); (1020,999,1); (872,1000,1); (992,1000,1); (996,1000,1); (1004,1000,1); (1012,1000,1); (1074,1000,1); (1077,1000,1);
(780,1001,1); (913,1001,1); (986,1001,1); (990,1001,1); (1005,1001,1); (1009,1001,1); (1067,1001,1); (777,1002,1); (869,1002,1); (895,1002,1); (994,1002,1); (998,1002,1);
(1010,1002,1); (908,1003,1); (991,1003,1); (995,1003,1); (1015,1003,1); (960,1004,1); (989,1004,1); (992,1004,1); (996,1004,1); (1000,1004,1); (1012,1004,1); (1021,1004,1);
(1107,1004,1); (771,1005,1); (864,1005,1); (888,1005,1); (958,1005,1); (1001,1005,1); (1009,1005,1); (1014,1005,1); (1055,1005,1); (955,1006,1); (962,1006,1); (987,1006,1);
(991,1006,1); (1051,1006,1); (1057,1006,1); (886,1007,1)].
Definition logo_W_14 : list (N * N * N) := [
(988,1007,1); (999,1007,1); (1011,1007,1); (1016,1007,1); (1046,1007,1); (904,1008,1); (964,1008,1); (971,1008,1); (989,1008,1); (996,1008,1); (1017,1008,1); (1026,1008,1);
(1073,1008,1); (769,1009,1); (893,1009,1); (937,1009,1); (1001,1009,1); (1005,1009,1); (1014,1009,1); (1018,1009,1); (1043,1009,1); (830,1010,1); (998,1010,1); (1002,1010,1);
(1019,1010,1); (881,1011,1); (999,1011,1); (1007,1011,1); (1016,1011,1); (1020,1011,1); (792,1012,1); (905,1012,1); (1000,1012,1); (1004,1012,1); (1021,1012,1); (979,1013,1);
(993,1013,1); (997,1013,1); (1022,1013,1); (1031,1013,1); (1063,1013,1); (775,1014,1); (825,1014,1); (829,1014,1); (939,1014,1); (1005,1014,1); (1009,1014,1); (1018,1014,1);
(995,1015,1); (1003,1015,1); (1024,1015,1); (1029,1015,1); (881,1016,1); (1007,1016,1); (1011,1016,1); (1020,1016,1); (1025,1016,1); (945,1017,1); (1008,1017,1); (1022,1017,1);
(1026,1017,1); (1036,1017,1); (1075,1017,1); (1009,1018,1); (1014,1018,1); (1027,1018,1); (1098,1018,1); (1010,1019,1); (1023,1019,1); (1028,1019,1); (1033,1019,1); (1081,1019,1);
(1117,1019,1); (963,1020,1); (999,1020,1); (1011,1020,1); (1016,1020,1); (1025,1020,1); (1004,1021,1); (1012,1021,1); (1030,1021,1); (1035,1021,1); (1105,1021,1); (878,1022,1);
(1013,1022,1); (1017,1022,1); (1031,1022,1); (1042,1022,1); (907,1023,1); (914,1023,1); (1019,1023,1); (1028,1023,1); (1033,1023,1); (880,1024,1); (1015,1024,1); (1029,1024,1);
(1034,1024,1); (1083,1024,1); (1088,1024,1); (808,1025,1); (862,1025,1); (1016,1025,1); (1020,1025,1); (1040,1025,1); (931,1026,1); (1008,1026,1); (1017,1026,1); (1036,1026,1);
(1062,1026,1); (787,1027,1); (968,1027,1); (1018,1027,1); (1032,1027,1); (1037,1027,1); (879,1028,1); (1019,1028,1); (1023,1028,1); (1033,1028,1); (1038,1028,1); (857,1029,1);
(1015,1029,1); (1024,1029,1); (1034,1029,1); (1039,1029,1); (1045,1029,1); (919,1030,1); (1021,1030,1); (1035,1030,1); (1041,1030,1); (1124,1030,1); (1013,1031,1); (1022,1031,1);
(1042,1031,1); (1048,1031,1); (1061,1031,1); (1074,1031,1); (1027,1032,1); (1037,1032,1); (1043,1032,1); (860,1033,1); (998,1033,1); (1019,1033,1); (1023,1033,1); (1028,1033,1);
(1038,1033,1); (1044,1033,1); (1117,1033,1); (870,1034,1); (1024,1034,1); (1029,1034,1); (1039,1034,1); (1045,1034,1); (909,1035,1); (1021,1035,1); (1030,1035,1); (1041,1035,1);
(1047,1035,1); (971,1036,1); (996,1036,1); (1017,1036,1); (1026,1036,1); (1061,1036,1); (1073,1036,1); (938,1037,1); (1027,1037,1); (1032,1037,1); (1043,1037,1); (1049,1037,1);
(879,1038,1); (1028,1038,1); (1033,1038,1); (1044,1038,1); (870,1039,1); (908,1039,1); (1029,1039,1); (1034,1039,1); (1045,1039,1); (1051,1039,1); (1092,1039,1); (1025,1040,1);
(1046,1040,1); (1052,1040,1); (1071,1040,1); (1104,1040,1); (1030,1041,1); (1035,1041,1); (1047,1041,1); (850,1042,1); (922,1042,1); (1022,1042,1); (1031,1042,1); (1048,1042,1);
(1054,1042,1); (1066,1042,1); (939,1043,1); (1009,1043,1); (1032,1043,1); (1037,1043,1); (1049,1043,1); (1055,1043,1); (950,1044,1); (1033,1044,1); (1038,1044,1); (1050,1044,1);
(848,1045,1); (1029,1045,1); (1034,1045,1); (1039,1045,1); (1084,1045,1); (1091,1045,1); (1092,1045,1); (832,1046,1); (1007,1046,1); (1040,1046,1); (1052,1046,1); (1058,1046,1);
(1035,1047,1); (1041,1047,1); (1053,1047,1); (1060,1047,1); (1103,1047,1); (1104,1047,1); (868,1048,1); (1031,1048,1); (1042,1048,1); (1054,1048,1); (1066,1048,1); (958,1049,1);
(1037,1049,1); (1043,1049,1); (1055,1049,1); (976,1050,1); (998,1050,1); (1044,1050,1); (1056,1050,1); (1069,1050,1); (935,1051,1); (1006,1051,1); (1039,1051,1); (1057,1051,1);
(1083,1051,1); (1084,1051,1); (1086,1051,1); (1040,1052,1); (1046,1052,1); (1058,1052,1); (1070,1052,1); (1120,1052,1); (898,1053,1); (989,1053,1); (1047,1053,1); (1059,1053,1);
(1060,1053,1); (992,1054,1); (1042,1054,1); (1048,1054,1); (1065,1054,1); (1066,1054,1); (1078,1054,1); (1005,1055,1); (1043,1055,1); (1049,1055,1); (1067,1055,1); (1128,1055,1);
(1050,1056,1); (1068,1056,1); (1069,1056,1); (1126,1056,1); (875,1057,1); (972,1057,1); (1006,1057,1); (1051,1057,1); (1083,1057,1); (1084,1057,1); (891,1058,1); (1046,1058,1);
(1052,1058,1); (1070,1058,1); (1053,1059,1); (1060,1059,1); (1072,1059,1); (1095,1059,1); (1047,1060,1); (1053,1060,1); (1059,1060,1); (1072,1060,1); (845,1061,1); (1031,1061,1);
(1036,1061,1); (1062,1061,1); (1073,1061,1); (1074,1061,1); (1026,1062,1); (1061,1062,1); (1063,1062,1); (1074,1062,1); (1075,1062,1); (975,1063,1); (1013,1063,1); (1062,1063,1);
(1064,1063,1); (1075,1063,1); (1076,1063,1); (859,1064,1); (931,1064,1); (1063,1064,1); (1076,1064,1); (1077,1064,1); (1054,1065,1); (1073,1065,1); (1077,1065,1); (1078,1065,1);
(850,1066,1); (912,1066,1); (1042,1066,1); (1048,1066,1); (1054,1066,1); (1076,1066,1); (1078,1066,1); (842,1067,1); (1001,1067,1); (1055,1067,1); (1079,1067,1); (1080,1067,1);
(1125,1067,1); (948,1068,1); (994,1068,1); (1056,1068,1); (1069,1068,1); (1081,1068,1); (1082,1068,1); (1118,1068,1); (933,1069,1); (939,1069,1); (1050,1069,1); (1056,1069,1);
(1068,1069,1); (1082,1069,1); (928,1070,1); (1052,1070,1); (1058,1070,1); (1071,1070,1); (909,1071,1); (1040,1071,1); (1070,1071,1); (1093,1071,1); (1095,1071,1); (1101,1071,1);
(1107,1071,1); (910,1072,1); (992,1072,1); (1059,1072,1); (1060,1072,1); (1095,1072,1); (1008,1073,1); (1036,1073,1); (1061,1073,1); (1065,1073,1); (1074,1073,1); (997,1074,1);
(1000,1074,1); (1031,1074,1); (1061,1074,1); (1062,1074,1); (1073,1074,1); (1075,1074,1); (954,1075,1); (970,1075,1); (982,1075,1); (1017,1075,1); (1062,1075,1); (1063,1075,1);
(1074,1075,1); (1076,1075,1); (868,1076,1); (1063,1076,1); (1064,1076,1); (1066,1076,1); (1075,1076,1); (1077,1076,1); (967,1077,1); (1000,1077,1); (1064,1077,1); (1065,1077,1);
(1076,1077,1); (1078,1077,1); (1054,1078,1); (1065,1078,1); (1066,1078,1); (1077,1078,1); (979,1079,1); (1067,1079,1); (1080,1079,1); (1096,1079,1); (1112,1079,1); (947,1080,1);
(948,1080,1); (1067,1080,1); (1079,1080,1); (1096,1080,1)].
Definition logo_W_15 : list (N * N * N) := [
(1097,1080,1); (1019,1081,1); (1068,1081,1); (1082,1081,1); (1100,1081,1); (1127,1081,1); (1068,1082,1); (1069,1082,1); (1081,1082,1); (1100,1082,1); (965,1083,1); (976,1083,1);
(994,1083,1); (1024,1083,1); (1051,1083,1); (1057,1083,1); (1084,1083,1); (1085,1083,1); (998,1084,1); (1045,1084,1); (1051,1084,1); (1057,1084,1); (1083,1084,1); (1085,1084,1);
(1086,1084,1); (890,1085,1); (1083,1085,1); (1084,1085,1); (1086,1085,1); (1087,1085,1); (1051,1086,1); (1084,1086,1); (1085,1086,1); (1087,1086,1); (1088,1086,1); (1092,1086,1);
(987,1087,1); (1085,1087,1); (1086,1087,1); (1088,1087,1); (1089,1087,1); (857,1088,1); (952,1088,1); (1024,1088,1); (1086,1088,1); (1087,1088,1); (1089,1088,1); (1090,1088,1);
(870,1089,1); (885,1089,1); (991,1089,1); (1087,1089,1); (1088,1089,1); (1090,1089,1); (870,1090,1); (1088,1090,1); (1089,1090,1); (1091,1090,1); (959,1091,1); (1045,1091,1);
(1090,1091,1); (1092,1091,1); (885,1092,1); (959,1092,1); (1039,1092,1); (1045,1092,1); (1086,1092,1); (1091,1092,1); (862,1093,1); (988,1093,1); (1071,1093,1); (1101,1093,1);
(1102,1093,1); (892,1094,1); (930,1094,1); (1095,1094,1); (1108,1094,1); (1123,1094,1); (1124,1094,1); (1059,1095,1); (1071,1095,1); (1072,1095,1); (1094,1095,1); (1108,1095,1);
(900,1096,1); (949,1096,1); (1079,1096,1); (1080,1096,1); (1097,1096,1); (1098,1096,1); (932,1097,1); (940,1097,1); (1080,1097,1); (1096,1097,1); (1098,1097,1); (1109,1097,1);
(1018,1098,1); (1096,1098,1); (1097,1098,1); (1109,1098,1); (1110,1098,1); (1113,1098,1); (1100,1099,1); (1113,1099,1); (1118,1099,1); (1119,1099,1); (925,1100,1); (1081,1100,1);
(1082,1100,1); (1099,1100,1); (1119,1100,1); (929,1101,1); (1071,1101,1); (1093,1101,1); (1102,1101,1); (929,1102,1); (1093,1102,1); (1101,1102,1); (1103,1102,1); (1120,1102,1);
(928,1103,1); (1047,1103,1); (1102,1103,1); (1104,1103,1); (1120,1103,1); (876,1104,1); (928,1104,1); (929,1104,1); (1040,1104,1); (1047,1104,1); (1103,1104,1); (1105,1104,1);
(1120,1104,1); (1121,1104,1); (1021,1105,1); (1104,1105,1); (1106,1105,1); (1121,1105,1); (1122,1105,1); (1105,1106,1); (1107,1106,1); (1122,1106,1); (1123,1106,1); (1004,1107,1);
(1071,1107,1); (1106,1107,1); (1108,1107,1); (1123,1107,1); (1124,1107,1); (1094,1108,1); (1095,1108,1); (1107,1108,1); (1124,1108,1); (924,1109,1); (938,1109,1); (1097,1109,1);
(1098,1109,1); (1110,1109,1); (1098,1110,1); (1109,1110,1); (1111,1110,1); (1115,1110,1); (947,1111,1); (1110,1111,1); (1112,1111,1); (1125,1111,1); (1079,1112,1); (1111,1112,1);
(1113,1112,1); (1125,1112,1); (923,1113,1); (1098,1113,1); (1099,1113,1); (1112,1113,1); (1114,1113,1); (1126,1113,1); (1129,1113,1); (941,1114,1); (1113,1114,1); (1115,1114,1);
(1127,1114,1); (947,1115,1); (1110,1115,1); (1114,1115,1); (1116,1115,1); (1128,1115,1); (1129,1115,1); (907,1116,1); (951,1116,1); (1115,1116,1); (1117,1116,1); (1129,1116,1);
(946,1117,1); (1019,1117,1); (1033,1117,1); (1116,1117,1); (1118,1117,1); (1129,1117,1); (1068,1118,1); (1099,1118,1); (1117,1118,1); (1119,1118,1); (1099,1119,1); (1100,1119,1);
(1118,1119,1); (1128,1119,1); (881,1120,1); (1052,1120,1); (1102,1120,1); (1103,1120,1); (1104,1120,1); (1121,1120,1); (862,1121,1); (903,1121,1); (1104,1121,1); (1105,1121,1);
(1120,1121,1); (1122,1121,1); (911,1122,1); (1105,1122,1); (1106,1122,1); (1121,1122,1); (1123,1122,1); (887,1123,1); (918,1123,1); (1094,1123,1); (1106,1123,1); (1107,1123,1);
(1122,1123,1); (1124,1123,1); (1030,1124,1); (1094,1124,1); (1107,1124,1); (1108,1124,1); (1123,1124,1); (941,1125,1); (1067,1125,1); (1111,1125,1); (1112,1125,1); (1126,1125,1);
(925,1126,1); (1056,1126,1); (1113,1126,1); (1125,1126,1); (1127,1126,1); (1129,1126,1); (1081,1127,1); (1114,1127,1); (1126,1127,1); (1128,1127,1); (894,1128,1); (1055,1128,1);
(1115,1128,1); (1119,1128,1); (1127,1128,1); (1129,1128,1); (1113,1129,1); (1115,1129,1); (1116,1129,1); (1117,1129,1); (1126,1129,1); (1128,1129,1)].
(** The entries (row, column, value) of the sparse matrix W, column by column. *)
Definition logo_W : list (N * N * N) := logo_W_0 ++ logo_W_1 ++ logo_W_2 ++ logo_W_3 ++ logo_W_4 ++ logo_W_5 ++ logo_W_6 ++ logo_W_7 ++ logo_W_8 ++ logo_W_9 ++ logo_W_10 ++ logo_W_11 ++ logo_W_12 ++ logo_W_13 ++ logo_W_14 ++ logo_W_15.
Definition logo_tree_0 : list (N * N) := [
(1,0); (12,0); (13,0); (14,0); (32,0); (108,0); (194,0); (2,1); (15,1); (186,1); (197,1); (42,12);
(20,14); (81,14); (19,32); (31,32); (41,32); (98,108); (103,108); (112,108); (80,194); (183,194); (193,194); (195,194);
(205,194); (3,2); (16,2); (88,2); (93,2); (241,15); (17,186); (185,186); (187,186); (196,186); (198,197); (34,42);
(71,42); (72,42); (184,42); (33,20); (334,81); (5,19); (18,19); (104,19); (262,19); (268,19); (40,31); (70,31);
(4,41); (295,98); (249,103); (120,112); (124,112); (355,112); (87,80); (222,193); (223,193); (273,193); (94,88); (99,88);
(134,93); (137,93); (131,241); (109,187); (199,198); (206,198); (224,198); (207,34); (113,72); (256,72); (310,334); (320,334);
(343,334); (360,334); (156,262); (274,262); (285,268); (279,295); (300,295); (315,295); (148,249); (255,249); (158,120); (376,120);
(204,124); (363,124); (338,355); (351,355); (359,355); (406,355); (267,273); (140,134); (329,137); (117,109); (242,206); (121,113);
(151,113); (290,310); (397,310); (380,343); (321,360); (348,360); (364,360); (400,360); (154,156); (161,156); (163,156); (306,285);
(403,279); (261,300); (165,315); (410,315); (248,255); (168,158); (391,158); (175,204); (422,363); (448,363); (416,338); (499,359);
(284,406); (347,406); (379,406); (419,406); (466,406); (513,406); (537,406); (128,117); (143,117); (392,121); (146,151); (388,151);
(385,290); (383,397); (386,397); (396,397); (398,397); (330,380); (381,380); (393,380); (169,321); (257,321); (280,321); (291,321);
(311,321); (316,321); (352,321); (356,321); (387,321); (339,348); (423,348); (250,364); (384,400); (395,161); (325,163); (286,306);
(296,306); (301,306); (494,403); (508,410); (319,248); (305,168); (437,175); (429,422); (440,422); (433,448); (452,448); (457,448);
(485,499); (489,499); (553,499); (324,347); (333,347); (461,466); (480,466); (609,466); (586,537); (399,388); (382,383); (394,383);
(389,398); (407,330); (159,169); (166,169); (188,169); (200,169); (275,169); (281,169); (114,257); (243,257); (263,257); (269,257);
(335,291); (504,291); (413,311); (444,311); (208,352); (420,356); (426,423); (538,423); (576,423); (575,494); (476,305); (471,433);
(623,485); (663,553); (752,553); (658,461); (672,480); (618,609); (628,609); (614,586); (138,389); (569,407); (149,159); (417,159);
(132,200); (225,200); (344,200); (125,275); (171,275); (244,275); (251,275); (37,281); (100,114); (105,114); (118,114); (404,269);
(377,335); (401,335); (481,504); (490,504); (495,504); (554,413); (462,444); (427,420); (430,420); (591,426); (531,538); (532,538);
(587,538); (746,538); (767,576); (742,575); (762,575); (638,623); (643,663); (653,663); (836,663); (667,752); (791,752); (648,658);
(685,658); (705,672); (766,614); (844,614); (135,138); (141,138); (144,138); (209,138); (573,569); (577,569); (580,569); (604,569);
(620,417); (201,344); (170,171); (172,171); (178,171); (25,244); (89,244); (21,37); (22,37); (36,37); (95,100); (43,118);
(599,481); (441,490); (449,495); (668,554); (434,427); (438,427); (603,427); (612,427); (468,430); (584,591); (595,591); (611,591);
(530,531); (659,531); (824,531); (722,532); (529,587); (615,587); (763,587); (690,746); (697,746); (716,746); (743,746); (750,746);
(797,746); (757,767); (760,767); (780,767); (676,742); (689,742); (800,762); (866,762); (796,638); (804,836); (815,836); (819,836);
(840,836); (739,685); (808,685); (849,685); (749,766); (756,766); (759,766); (853,844); (176,144); (189,209); (445,577); (607,604);
(608,604); (616,620); (621,620); (625,620); (631,620); (635,620); (8,201); (181,201); (26,170); (35,170); (74,170); (177,170);
(180,170); (46,172); (173,172); (179,172); (191,172); (10,178); (11,178); (28,178); (38,178); (39,178); (7,25); (24,25);
(73,89); (82,89); (23,22); (29,22); (44,36); (9,95); (454,599); (453,449); (656,449); (664,668); (673,668); (838,668);
(458,434); (640,438); (630,603); (464,468); (467,468); (472,468); (473,468); (641,468); (528,530); (779,530); (649,659); (654,659);
(781,659); (713,824); (812,824); (816,824); (820,824); (828,824); (712,722); (863,722); (527,529); (639,615); (644,615); (568,763);
(792,763); (514,690); (677,690); (681,690); (691,690); (706,690); (708,690); (711,690); (715,690); (516,697); (572,697); (610,697);
(696,697); (698,697); (699,697); (700,716)].
Definition logo_tree_1 : list (N * N) := [
(714,716); (524,750); (740,750); (753,750); (829,750); (801,797); (805,797); (809,797); (846,797); (978,797); (793,757); (931,757);
(769,760); (833,760); (768,780); (979,780); (1001,780); (984,796); (832,804); (858,804); (896,739); (1025,808); (862,849); (977,849);
(956,749); (963,759); (936,853); (477,445); (478,621); (626,621); (655,621); (636,631); (129,181); (190,181); (202,181); (27,26);
(75,26); (45,74); (83,74); (297,74); (226,177); (110,46); (312,191); (30,38); (6,7); (459,454); (482,656); (651,656);
(660,656); (665,656); (782,664); (686,673); (701,673); (774,838); (821,838); (825,838); (899,838); (975,838); (645,640); (463,464);
(486,464); (533,472); (526,528); (695,779); (872,779); (770,649); (968,781); (845,713); (854,713); (525,812); (997,812); (841,816);
(960,816); (694,820); (710,820); (634,828); (837,828); (850,863); (859,863); (868,863); (953,863); (522,527); (515,568); (579,568);
(583,568); (1012,792); (523,514); (606,514); (709,681); (692,691); (707,691); (624,706); (693,708); (517,516); (518,516); (602,610);
(619,610); (519,696); (594,696); (598,714); (855,829); (1014,829); (982,809); (873,846); (906,846); (957,978); (967,978); (989,978);
(893,793); (912,931); (922,931); (945,931); (954,931); (1026,931); (1064,931); (1009,769); (878,833); (986,979); (990,979); (1013,979);
(1079,979); (913,1001); (1005,1001); (1067,1001); (876,984); (988,984); (999,984); (1046,832); (871,858); (886,858); (891,858); (902,896);
(916,896); (1016,1025); (1020,1025); (1040,1025); (1093,862); (1121,862); (483,478); (650,655); (115,129); (122,129); (126,129); (371,129);
(90,190); (365,202); (84,75); (157,45); (326,45); (258,297); (282,297); (287,297); (292,297); (302,297); (340,297); (370,297);
(147,226); (252,226); (101,110); (106,110); (307,312); (317,312); (270,30); (492,459); (717,482); (496,651); (570,660); (588,665);
(669,665); (783,782); (773,774); (775,774); (786,774); (787,774); (784,821); (789,825); (958,825); (905,899); (964,899); (971,975);
(1063,975); (487,486); (491,486); (682,486); (505,533); (509,533); (510,533); (539,533); (596,533); (723,533); (867,872); (877,872);
(882,872); (1000,872); (771,770); (961,968); (1027,968); (1061,845); (993,997); (1074,997); (985,841); (921,960); (970,960); (1004,960);
(629,634); (888,850); (1042,850); (1066,850); (1048,868); (1076,868); (520,522); (521,522); (590,583); (1021,1012); (842,855); (851,855);
(864,855); (937,855); (939,1014); (1018,1014); (1075,982); (900,906); (923,906); (924,906); (1077,967); (1008,989); (1053,989); (798,893);
(883,893); (1017,945); (1036,1026); (1062,1026); (1043,1009); (817,878); (1022,878); (834,990); (1031,1013); (1080,1079); (1096,1079); (1112,1079);
(788,913); (1055,1005); (1125,1067); (881,876); (917,876); (1104,876); (1007,988); (1011,999); (1052,1046); (1058,1046); (910,871); (897,886);
(1071,1040); (1101,1093); (1102,1093); (903,1121); (1105,1121); (1120,1121); (1122,1121); (555,483); (501,650); (678,650); (361,115); (373,115);
(368,122); (369,126); (276,371); (372,371); (435,371); (96,90); (366,365); (367,365); (264,84); (152,157); (164,157); (303,157);
(203,282); (227,282); (245,282); (298,282); (322,282); (331,287); (374,370); (210,252); (500,492); (777,492); (744,717); (747,717);
(581,570); (497,588); (592,588); (600,588); (674,669); (772,773); (785,773); (813,787); (776,789); (802,789); (1049,958); (469,596);
(646,596); (661,596); (887,877); (892,882); (919,882); (992,1000); (996,1000); (1032,1027); (1037,1027); (1073,1061); (974,985); (981,985);
(911,921); (920,921); (930,921); (1107,1004); (1054,1042); (1078,1066); (1030,1021); (1035,1021); (806,842); (938,939); (940,939); (946,939);
(1069,939); (1098,1018); (932,923); (948,923); (1113,923); (1109,924); (1065,1077); (904,1008); (898,1053); (1047,1053); (1059,1053); (1060,1053);
(947,1080); (1097,1080); (949,1096); (1111,1112); (1128,1055); (941,1125); (1126,1125); (918,917); (927,917); (928,1104); (929,1104); (1103,1104);
(1070,1052); (909,910); (1072,910); (1095,1071); (1106,1105); (1123,1122); (617,555); (632,678); (336,361); (349,361); (411,373); (353,372);
(341,435); (414,435); (424,435); (442,435); (150,164); (174,164); (49,303); (293,303); (327,303); (271,203); (167,227); (332,298);
(431,298); (357,322); (133,210); (764,777); (794,777); (810,777); (983,777); (1002,777); (965,747); (585,581); (408,497); (446,497);
(534,497); (574,497); (637,592); (679,592); (702,592); (488,469); (683,646); (670,661); (687,661); (1094,892); (1108,1107); (1124,1107);
(1041,1030); (1117,946); (933,1069); (1050,1069)].
Definition logo_tree_2 : list (N * N) := [
(1056,1069); (1068,1069); (1082,1069); (1110,1098); (1099,1113); (1114,1113); (1129,1113); (942,947); (1115,947); (950,949); (894,1128); (1119,1128);
(1127,1128); (943,941); (951,941); (925,1126); (622,617); (627,617); (758,632); (288,336); (345,336); (479,411); (308,353); (506,353);
(211,341); (228,341); (318,341); (323,341); (52,150); (182,150); (47,49); (48,49); (50,49); (51,49); (253,293); (259,293);
(450,327); (421,431); (439,431); (313,133); (751,764); (822,794); (879,794); (790,810); (830,810); (885,983); (934,983); (972,983);
(976,983); (994,983); (869,1002); (895,1002); (998,1002); (1010,1002); (955,965); (1083,965); (578,585); (642,585); (378,408); (390,408);
(405,408); (455,446); (460,446); (556,574); (741,679); (761,679); (765,679); (778,679); (826,702); (843,702); (474,488); (543,488);
(748,683); (803,683); (811,683); (1019,1117); (1033,1117); (1116,1117); (1118,1117); (1044,1050); (1081,1068); (1100,1082); (847,894); (884,894);
(889,894); (907,894); (914,894); (814,758); (818,758); (944,758); (60,288); (229,288); (233,288); (265,288); (277,288); (542,479);
(540,506); (724,506); (53,211); (212,211); (213,211); (246,211); (234,228); (54,52); (231,52); (215,50); (214,51); (557,450);
(754,751); (839,751); (901,751); (835,822); (860,879); (1028,879); (1038,879); (799,790); (852,830); (848,885); (870,885); (915,885);
(962,885); (1089,885); (1092,885); (1057,972); (935,869); (874,895); (1084,998); (1006,955); (1024,1083); (1051,1083); (1085,1083); (726,460);
(541,556); (544,556); (745,765); (755,765); (795,765); (827,765); (560,778); (727,778); (856,843); (559,543); (562,803); (807,803);
(558,811); (823,811); (1023,1019); (857,814); (908,944); (926,944); (952,944); (959,944); (58,60); (59,60); (61,60); (62,60);
(230,229); (86,233); (216,233); (232,233); (725,542); (561,724); (731,724); (861,724); (55,53); (217,246); (235,234); (56,54);
(219,231); (221,231); (254,215); (865,901); (831,848); (1045,848); (1034,870); (1039,870); (1090,870); (987,915); (991,915); (1087,1089);
(1088,1089); (1086,1092); (1091,1092); (875,1057); (880,1024); (1015,1024); (1029,1024); (890,1085); (728,726); (734,541); (545,544); (732,755);
(729,727); (546,562); (563,562); (973,807); (564,558); (1003,908); (966,959); (57,58); (218,59); (63,61); (64,62); (85,86);
(91,86); (92,86); (97,86); (733,561); (730,731); (236,235); (272,235); (220,219); (237,221); (238,221); (239,221); (127,254);
(155,254); (240,254); (247,254); (260,254); (980,991); (995,991); (969,890); (735,734); (718,545); (550,732); (566,729); (547,546);
(565,546); (719,563); (548,564); (65,57); (69,218); (77,218); (76,63); (79,85); (119,85); (102,91); (162,92); (498,733);
(703,733); (535,730); (283,272); (304,272); (68,237); (116,238); (294,239); (123,127); (130,127); (136,127); (145,155); (153,155);
(160,155); (192,240); (266,240); (278,240); (314,240); (350,260); (736,735); (720,718); (737,718); (549,550); (551,550); (597,566);
(680,719); (738,719); (552,548); (66,65); (78,69); (67,76); (107,119); (111,119); (142,119); (484,498); (493,498); (502,498);
(507,498); (536,498); (688,703); (704,703); (721,703); (511,535); (299,283); (328,304); (289,116); (358,294); (139,130); (346,136);
(428,160); (425,192); (309,278); (475,278); (337,314); (362,350); (375,350); (409,350); (662,720); (657,737); (432,597); (589,597);
(593,597); (601,597); (605,597); (613,597); (571,680); (666,680); (671,680); (675,680); (684,680); (633,738); (465,484); (470,484);
(652,493); (436,507); (503,536); (512,536); (567,536); (402,289); (418,289); (342,358); (354,358); (412,425); (415,425); (451,425);
(443,475); (447,475); (456,475); (582,362); (647,657)].
(** A spanning tree (child, parent) rooted at 0. *)
Definition logo_tree : list (N * N) := logo_tree_0 ++ logo_tree_1 ++ logo_tree_2.
Definition logo_idx_g_0 : list N := [
1; 2; 3; 4; 5; 6; 13; 14; 15; 16; 17; 18;
19; 20; 21; 32; 33; 34; 35; 41; 42; 43; 71; 72;
73; 81; 82; 88; 89; 94; 95; 99; 100; 104; 105; 109;
110; 113; 114; 118; 121; 122; 125; 129; 132; 135; 138; 141;
144; 147; 149; 152; 155; 157; 159; 162; 164; 166; 169; 176;
184; 185; 186; 187; 188; 194; 195; 196; 197; 198; 199; 200;
205; 206; 207; 208; 223; 224; 225; 242; 243; 249; 250; 251;
256; 257; 262; 263; 268; 269; 274; 275; 280; 281; 285; 286;
287; 291; 296; 297; 301; 302; 306; 307; 311; 316; 320; 321;
325; 326; 330; 331; 334; 335; 339; 340; 344; 348; 349; 352;
356; 360; 361; 364; 365; 377; 380; 381; 382; 383; 384; 385;
386; 387; 388; 389; 392; 393; 394; 395; 396; 397; 398; 399;
400; 401; 404; 407; 411; 417; 420; 423; 430; 434; 438; 441;
449; 453; 458; 462; 467; 472; 477; 481; 486; 490; 495; 500;
509; 514; 515; 516; 517; 518; 519; 520; 521; 522; 523; 524;
525; 526; 527; 528; 529; 530; 531; 532; 533; 538; 539; 554;
555; 569; 573; 576; 577; 580; 584; 587; 588; 591; 595; 599;
603; 607; 610; 611; 615; 616; 619; 620; 624; 625; 629; 630;
635; 639; 640; 644; 645; 649; 650; 654; 655; 659; 660; 664;
665; 668; 669; 673; 674; 677; 678; 682; 686; 687; 690; 691;
692; 693; 694; 695; 696; 697; 698; 699; 700; 701; 702; 706;
707; 708; 709; 710; 711; 712; 713; 714; 715; 716; 717; 723;
740; 741; 743; 744; 747; 750; 751; 753; 754; 757; 758; 760;
761; 763; 764; 767; 768; 780; 792; 793; 797; 798; 801; 802;
805; 806; 809; 810; 813; 816; 817; 820; 821; 825; 829; 833;
834; 837; 838; 841; 842; 845; 846; 850; 851; 854; 855; 859;
860; 863; 864; 867; 868; 869; 872; 873; 877; 878; 882; 883;
887; 888; 892; 893; 897; 898; 899; 900; 903; 904; 905; 906;
910; 911; 912; 913; 917; 918; 919; 920; 921; 922; 923; 928;
929; 930; 931; 932; 937; 946; 954; 955; 957; 958; 961; 964;
965; 968; 971; 972; 975; 976; 978; 979; 982; 983; 985; 986;
989; 990; 993; 994; 997; 998; 1000; 1001; 1005; 1008; 1009; 1012;
1013; 1014; 1017; 1018; 1021; 1022; 1023; 1026; 1027; 1031; 1032; 1036;
1037; 1041; 1042; 1043].
Definition logo_idx_g_1 : list N := [
1047; 1048; 1049; 1053; 1054; 1055; 1059; 1060; 1061; 1062; 1063; 1064;
1065; 1066; 1067; 1071; 1072; 1073; 1074; 1075; 1076; 1077; 1078; 1079;
1094; 1095; 1096; 1102; 1103; 1104; 1105; 1106; 1107; 1108; 1109; 1121;
1122; 1123; 1124; 1125].
(** The array idx_g. *)
Definition logo_idx_g : list N := logo_idx_g_0 ++ logo_idx_g_1.
Definition logo_idx_s_0 : list N := [
7; 8; 9; 10; 11; 12; 22; 23; 24; 25; 26; 27;
28; 29; 30; 31; 36; 37; 38; 39; 40; 44; 45; 46;
47; 74; 75; 76; 83; 84; 85; 90; 91; 96; 97; 101;
102; 106; 107; 111; 115; 116; 119; 123; 126; 127; 130; 133;
136; 139; 142; 145; 148; 150; 153; 158; 160; 165; 167; 170;
171; 172; 173; 174; 175; 177; 178; 179; 180; 181; 182; 189;
190; 191; 192; 201; 202; 203; 204; 209; 210; 211; 226; 227;
228; 244; 245; 246; 252; 253; 258; 259; 264; 265; 270; 271;
276; 277; 282; 283; 288; 292; 293; 298; 303; 308; 312; 313;
317; 318; 322; 323; 327; 332; 336; 341; 345; 350; 353; 357;
362; 366; 367; 368; 369; 370; 371; 372; 373; 374; 375; 378;
390; 402; 405; 408; 414; 418; 421; 424; 427; 428; 431; 435;
439; 442; 445; 446; 450; 454; 455; 459; 460; 463; 464; 465;
468; 469; 473; 474; 478; 479; 482; 483; 484; 487; 488; 491;
492; 493; 496; 497; 501; 502; 505; 506; 510; 511; 534; 540;
556; 570; 571; 574; 578; 581; 582; 585; 589; 592; 593; 596;
597; 600; 601; 604; 605; 608; 609; 612; 613; 617; 618; 621;
622; 623; 626; 627; 628; 631; 632; 633; 636; 637; 638; 641;
642; 646; 647; 651; 652; 656; 657; 661; 662; 666; 670; 671;
675; 679; 683; 688; 703; 718; 724; 745; 748; 752; 755; 762;
765; 769; 770; 771; 772; 773; 774; 775; 776; 777; 778; 781;
782; 783; 784; 785; 786; 787; 788; 789; 790; 791; 794; 795;
799; 800; 803; 807; 811; 814; 818; 819; 822; 823; 826; 827;
830; 831; 835; 836; 839; 843; 844; 847; 848; 852; 853; 856;
857; 861; 865; 866; 870; 874; 875; 879; 880; 884; 885; 889;
890; 894; 895; 896; 901; 902; 907; 908; 914; 915; 924; 925;
926; 933; 934; 935; 936; 938; 939; 940; 941; 942; 943; 944;
947; 948; 949; 950; 951; 952; 956; 959; 962; 966; 969; 973;
977; 980; 984; 987; 991; 995; 999; 1002; 1003; 1006; 1010; 1011;
1015; 1019; 1020; 1024; 1028; 1029; 1033; 1034; 1038; 1039; 1044; 1045;
1050; 1051; 1056; 1057; 1068; 1069; 1070; 1080; 1081; 1082; 1083; 1097;
1098; 1099; 1100; 1101; 1110; 1111; 1112; 1113; 1114; 1115; 1116; 1117;
1118; 1119; 1120; 1126; 1127; 1128; 1129; 1130].
(** The array idx_s. *)
Definition logo_idx_s : list N := logo_idx_s_0.
Definition logo_idx_p_0 : list N := [
48; 49; 50; 51; 52; 53; 54; 55; 56; 57; 58; 59;
60; 61; 62; 63; 64; 65; 66; 67; 68; 69; 70; 77;
78; 79; 80; 86; 87; 92; 93; 98; 103; 108; 112; 117;
120; 124; 128; 131; 134; 137; 140; 143; 146; 151; 154; 156;
161; 163; 168; 183; 193; 212; 213; 214; 215; 216; 217; 218;
219; 220; 221; 222; 229; 230; 231; 232; 233; 234; 235; 236;
237; 238; 239; 240; 241; 247; 248; 254; 255; 260; 261; 266;
267; 272; 273; 278; 279; 284; 289; 290; 294; 295; 299; 300;
304; 305; 309; 310; 314; 315; 319; 324; 328; 329; 333; 337;
338; 342; 343; 346; 347; 351; 354; 355; 358; 359; 363; 376;
379; 391; 403; 406; 409; 410; 412; 413; 415; 416; 419; 422;
425; 426; 429; 432; 433; 436; 437; 440; 443; 444; 447; 448;
451; 452; 456; 457; 461; 466; 470; 471; 475; 476; 480; 485;
489; 494; 498; 499; 503; 504; 507; 508; 512; 513; 535; 536;
537; 541; 542; 543; 544; 545; 546; 547; 548; 549; 550; 551;
552; 553; 557; 558; 559; 560; 561; 562; 563; 564; 565; 566;
567; 568; 572; 575; 579; 583; 586; 590; 594; 598; 602; 606;
614; 634; 643; 648; 653; 658; 663; 667; 672; 676; 680; 681;
684; 685; 689; 704; 705; 719; 720; 721; 722; 725; 726; 727;
728; 729; 730; 731; 732; 733; 734; 735; 736; 737; 738; 739;
742; 746; 749; 756; 759; 766; 779; 796; 804; 808; 812; 815;
824; 828; 832; 840; 849; 858; 862; 871; 876; 881; 886; 891;
909; 916; 927; 945; 953; 960; 963; 967; 970; 974; 981; 988;
992; 996; 1004; 1007; 1016; 1025; 1030; 1035; 1040; 1046; 1052; 1058;
1084; 1085; 1086; 1087; 1088; 1089; 1090; 1091; 1092; 1093].
(** The array idx_p. *)
Definition logo_idx_p : list N := logo_idx_p_0.
