(** pygsp/data/pointclouds/minnesota.mat.  Generated by tools/extract_data.py. *)
From Coq Require Import List NArith.
Import ListNotations.
Open Scope N_scope.
Definition minnesota_A_0 : list (N * N * N) := [
(6,0,1); (16,1,1); (3,2,1); (11,2,1); (2,3,1); (9,4,1); (8,5,1); (0,6,1); (7,6,1); (14,6,1); (6,7,1); (5,8,1);
(9,8,1); (12,8,1); (4,9,1); (8,9,1); (10,9,1); (9,10,1); (11,10,1); (43,10,1); (2,11,1); (10,11,1); (20,11,1); (8,12,1);
(18,12,1); (14,13,1); (6,14,1); (13,14,1); (15,14,1); (14,15,1); (16,15,1); (34,15,1); (1,16,1); (15,16,1); (31,16,1); (18,17,1);
(12,18,1); (17,18,1); (19,18,1); (18,19,1); (22,19,1); (51,19,1); (11,20,1); (21,20,1); (23,20,1); (20,21,1); (39,21,1); (19,22,1);
(44,22,1); (20,23,1); (31,23,1); (25,24,1); (24,25,1); (26,25,1); (28,25,1); (25,26,1); (29,26,1); (30,26,1); (28,27,1); (35,27,1);
(25,28,1); (27,28,1); (29,28,1); (26,29,1); (28,29,1); (36,29,1); (26,30,1); (37,30,1); (16,31,1); (23,31,1); (34,31,1); (41,31,1);
(33,32,1); (34,32,1); (40,32,1); (32,33,1); (15,34,1); (31,34,1); (32,34,1); (42,34,1); (27,35,1); (38,35,1); (29,36,1); (38,36,1);
(30,37,1); (38,37,1); (44,37,1); (35,38,1); (36,38,1); (37,38,1); (47,38,1); (21,39,1); (71,39,1); (32,40,1); (46,40,1); (31,41,1);
(52,41,1); (34,42,1); (54,42,1); (10,43,1); (56,43,1); (22,44,1); (37,44,1); (49,44,1); (46,45,1); (40,46,1); (45,46,1); (60,46,1);
(38,47,1); (48,47,1); (50,47,1); (47,48,1); (85,48,1); (44,49,1); (50,49,1); (64,49,1); (47,50,1); (49,50,1); (120,50,1); (19,51,1);
(128,51,1); (41,52,1); (53,52,1); (70,52,1); (52,53,1); (54,53,1); (42,54,1); (53,54,1); (55,54,1); (59,54,1); (54,55,1); (62,55,1);
(43,56,1); (57,56,1); (69,56,1); (56,57,1); (81,57,1); (66,58,1); (54,59,1); (61,59,1); (62,59,1); (46,60,1); (62,60,1); (63,60,1);
(59,61,1); (65,61,1); (67,61,1); (55,62,1); (59,62,1); (60,62,1); (68,62,1); (60,63,1); (49,64,1); (119,64,1); (124,64,1); (61,65,1);
(78,65,1); (58,66,1); (87,66,1); (97,66,1); (61,67,1); (89,67,1); (62,68,1); (92,68,1); (56,69,1); (80,69,1); (52,70,1); (74,70,1);
(39,71,1); (73,71,1); (181,72,1); (71,73,1); (75,73,1); (70,74,1); (78,74,1); (73,75,1); (76,75,1); (75,76,1); (77,76,1); (82,76,1);
(76,77,1); (80,77,1); (65,78,1); (74,78,1); (82,78,1); (80,79,1); (81,79,1); (69,80,1); (77,80,1); (79,80,1); (88,80,1); (57,81,1);
(79,81,1); (94,81,1); (76,82,1); (78,82,1); (83,82,1); (84,82,1); (82,83,1); (95,83,1); (82,84,1); (93,84,1); (48,85,1); (87,85,2);
(146,86,1); (66,87,1); (85,87,2); (108,87,1); (80,88,1); (90,88,1); (67,89,1); (91,89,1); (92,89,1); (157,89,1); (88,90,1); (95,90,1);
(98,90,1); (89,91,1); (93,91,1); (68,92,1); (89,92,1); (102,92,1); (84,93,1); (91,93,1); (95,93,1); (100,93,1); (81,94,1); (130,94,1);
(83,95,1); (90,95,1); (93,95,1); (99,95,1); (101,96,1); (66,97,1); (118,97,1); (90,98,1); (141,98,1); (95,99,1); (152,99,1); (93,100,1);
(123,100,1); (96,101,1); (115,101,1); (146,101,1); (92,102,1); (103,102,1); (102,103,1); (104,103,1); (105,103,1); (106,103,1); (103,104,1); (114,104,1);
(103,105,1); (103,106,1); (107,106,1); (106,107,1); (109,107,1); (110,107,1); (87,108,1); (135,108,1); (136,108,1); (107,109,1); (112,109,1); (113,109,1);
(107,110,1); (113,111,1); (109,112,1); (114,112,1); (109,113,1); (111,113,1); (116,113,1); (104,114,1); (112,114,1); (155,114,1); (101,115,1); (113,116,1);
(167,116,1); (118,117,1); (154,117,1); (190,117,1); (97,118,1); (117,118,1); (153,118,1); (64,119,1); (122,119,1); (50,120,1); (121,120,1); (120,121,1);
(140,121,1); (119,122,1); (125,122,1); (100,123,1); (142,123,1); (149,123,1); (64,124,1); (129,124,1); (139,124,1); (122,125,1); (129,125,1); (143,125,1);
(128,126,1); (132,126,1); (187,126,1); (128,127,1); (131,127,1); (51,128,1); (126,128,1); (127,128,1); (124,129,1); (125,129,1); (145,129,1); (94,130,1);
(132,130,1); (127,131,1); (139,131,1); (126,132,1); (130,132,1); (215,132,1); (134,133,1); (135,133,1); (133,134,1); (140,134,1); (108,135,1); (133,135,1);
(136,135,1); (218,135,1); (108,136,1); (135,136,1); (137,136,1); (136,137,1); (138,137,1); (198,137,1); (137,138,1); (163,138,1); (124,139,1); (131,139,1);
(144,139,1); (121,140,1); (134,140,1); (150,140,1); (98,141,1); (151,141,1); (123,142,1); (159,142,1); (125,143,1); (147,143,1); (139,144,1); (158,144,1);
(129,145,1); (270,145,1); (86,146,1); (101,146,1); (182,146,1); (143,147,1); (148,147,1); (196,147,1); (147,148,1); (150,148,1); (197,148,1); (123,149,1);
(152,149,1); (177,149,1); (140,150,1); (148,150,1); (265,150,1); (141,151,1); (152,151,1); (164,151,1); (99,152,1); (149,152,1); (151,152,1); (171,152,1);
(118,153,1); (189,153,1); (117,154,1); (163,154,1); (190,154,1); (114,155,1); (157,155,1); (161,155,1); (186,156,1); (251,156,1); (89,157,1); (155,157,1);
(162,157,1); (144,158,1); (187,158,1); (142,159,1); (160,159,1); (168,159,1); (159,160,1); (162,160,1); (155,161,1); (162,161,1); (166,161,1); (157,162,1);
(160,162,1); (161,162,1); (165,162,1); (138,163,1)].
Definition minnesota_A_1 : list (N * N * N) := [
(154,163,1); (193,163,1); (151,164,1); (169,164,1); (162,165,1); (166,165,1); (173,165,1); (161,166,1); (165,166,1); (174,166,1); (116,167,1); (170,167,1);
(174,167,1); (194,167,1); (159,168,1); (172,168,1); (179,168,1); (164,169,1); (192,169,1); (167,170,1); (152,171,1); (188,171,1); (168,172,1); (175,172,1);
(165,173,1); (179,173,1); (166,174,1); (167,174,1); (184,174,1); (172,175,1); (176,175,1); (175,176,1); (178,176,1); (149,177,1); (180,177,1); (176,178,1);
(180,178,1); (168,179,1); (173,179,1); (185,179,1); (177,180,1); (178,180,1); (188,180,1); (201,180,1); (72,181,1); (183,181,1); (146,182,1); (183,182,1);
(181,183,1); (182,183,1); (199,183,1); (174,184,1); (194,184,1); (179,185,1); (201,185,1); (222,185,1); (156,186,1); (199,186,1); (126,187,1); (158,187,1);
(195,187,1); (171,188,1); (180,188,1); (209,188,1); (223,188,1); (153,189,1); (251,189,1); (332,189,1); (117,190,1); (154,190,1); (193,190,1); (205,190,1);
(192,191,1); (208,191,1); (169,192,1); (191,192,1); (212,192,1); (163,193,1); (190,193,1); (198,193,1); (167,194,1); (184,194,1); (224,194,1); (187,195,1);
(219,195,1); (226,195,1); (147,196,1); (197,196,1); (272,196,1); (148,197,1); (196,197,1); (286,197,1); (137,198,1); (193,198,1); (200,198,1); (183,199,1);
(186,199,1); (241,199,1); (198,200,1); (202,200,1); (203,200,1); (180,201,1); (185,201,1); (221,201,1); (200,202,1); (207,202,1); (200,203,1); (206,203,1);
(205,204,1); (230,204,1); (264,204,1); (190,205,1); (204,205,1); (264,205,1); (203,206,1); (207,206,1); (213,206,1); (202,207,1); (206,207,1); (216,207,1);
(191,208,1); (210,208,1); (212,208,1); (188,209,1); (211,209,1); (208,210,1); (215,210,1); (209,211,1); (212,211,1); (192,212,1); (208,212,1); (211,212,1);
(279,212,1); (206,213,1); (214,213,1); (216,213,1); (213,214,1); (237,214,1); (132,215,1); (210,215,1); (217,215,1); (207,216,1); (213,216,1); (220,216,1);
(215,217,1); (225,217,1); (135,218,1); (233,218,1); (195,219,1); (232,219,1); (216,220,1); (229,220,1); (234,220,1); (201,221,1); (274,221,1); (185,222,1);
(280,222,1); (188,223,1); (273,223,1); (194,224,1); (267,224,1); (217,225,1); (227,225,1); (231,225,1); (195,226,1); (228,226,1); (225,227,1); (228,227,1);
(226,228,1); (227,228,1); (231,228,1); (232,228,1); (220,229,1); (230,229,1); (204,230,1); (229,230,1); (242,230,1); (225,231,1); (228,231,1); (245,231,1);
(219,232,1); (228,232,1); (244,232,1); (218,233,1); (235,233,1); (236,233,1); (220,234,1); (243,234,1); (233,235,1); (236,235,1); (239,235,1); (233,236,1);
(235,236,1); (238,236,1); (214,237,1); (238,237,1); (240,237,1); (236,238,1); (237,238,1); (235,239,1); (250,239,1); (237,240,1); (252,240,1); (199,241,1);
(268,241,1); (230,242,1); (243,242,1); (234,243,1); (242,243,1); (259,243,1); (232,244,1); (246,244,1); (247,244,1); (231,245,1); (248,245,1); (244,246,1);
(248,246,1); (244,247,1); (249,247,1); (245,248,1); (246,248,1); (249,248,1); (253,248,1); (247,249,1); (248,249,1); (254,249,1); (239,250,1); (255,250,1);
(256,250,1); (156,251,1); (189,251,1); (268,251,1); (240,252,1); (258,252,1); (248,253,1); (293,253,1); (249,254,1); (263,254,1); (250,255,1); (256,255,1);
(260,255,1); (250,256,1); (255,256,1); (257,256,1); (256,257,1); (261,257,1); (284,257,1); (252,258,1); (259,258,1); (260,258,1); (243,259,1); (258,259,1);
(344,259,1); (255,260,1); (258,260,1); (257,261,1); (265,261,1); (263,262,1); (269,262,1); (316,262,1); (254,263,1); (262,263,1); (204,264,1); (205,264,1);
(319,264,1); (150,265,1); (261,265,1); (271,265,1); (267,266,1); (224,267,1); (266,267,1); (282,267,1); (241,268,1); (251,268,1); (332,268,1); (262,269,1);
(277,269,1); (327,269,1); (145,270,1); (272,270,1); (277,270,1); (265,271,1); (291,271,1); (323,271,1); (196,272,1); (270,272,1); (278,272,1); (223,273,1);
(275,273,1); (276,273,1); (303,273,1); (221,274,1); (276,274,1); (281,274,1); (273,275,1); (279,275,1); (273,276,1); (274,276,1); (269,277,1); (270,277,1);
(272,278,1); (285,278,1); (287,278,1); (212,279,1); (275,279,1); (290,279,1); (222,280,1); (281,280,1); (282,280,1); (301,280,1); (274,281,1); (280,281,1);
(304,281,1); (267,282,1); (280,282,1); (283,282,1); (282,283,1); (300,283,1); (257,284,1); (349,284,1); (278,285,1); (287,285,1); (289,285,1); (197,286,1);
(292,286,1); (278,287,1); (285,287,1); (288,287,1); (287,288,1); (305,288,1); (285,289,1); (292,289,1); (279,290,1); (299,290,1); (271,291,1); (295,291,1);
(286,292,1); (289,292,1); (294,292,1); (253,293,1); (297,293,1); (299,293,1); (292,294,1); (295,294,1); (298,294,1); (291,295,1); (294,295,1); (296,295,1);
(295,296,1); (323,296,1); (293,297,1); (315,297,1); (335,297,1); (294,298,1); (329,298,1); (290,299,1); (293,299,1); (317,299,1); (283,300,1); (301,300,1);
(314,300,1); (280,301,1); (300,301,1); (304,301,1); (312,301,1); (303,302,1); (304,302,1); (273,303,1); (302,303,1); (308,303,1); (311,303,1); (281,304,1);
(301,304,1); (302,304,1); (313,304,1); (288,305,1); (325,305,1); (307,306,1); (318,306,1); (306,307,1); (310,307,1); (303,308,1); (309,308,1); (308,309,1);
(310,309,1); (307,310,1); (309,310,1); (303,311,1); (320,311,1); (301,312,1); (359,312,1); (304,313,1); (357,313,1); (300,314,1); (354,314,1); (297,315,1);
(316,315,1); (262,316,1); (315,316,1); (321,316,1)].
Definition minnesota_A_2 : list (N * N * N) := [
(299,317,1); (318,317,1); (350,317,1); (306,318,1); (317,318,1); (264,319,1); (371,319,1); (311,320,1); (322,320,1); (399,320,1); (316,321,1); (326,321,1);
(333,321,1); (320,322,1); (271,323,1); (296,323,1); (330,323,1); (331,323,1); (325,324,1); (328,324,1); (414,324,1); (305,325,1); (324,325,1); (343,325,1);
(321,326,1); (327,326,1); (398,326,1); (269,327,1); (326,327,1); (328,327,1); (324,328,1); (327,328,1); (380,328,1); (298,329,1); (340,329,1); (323,330,1);
(337,330,1); (323,331,1); (334,331,1); (189,332,1); (268,332,1); (346,332,1); (321,333,1); (335,333,1); (331,334,1); (336,334,1); (337,334,1); (297,335,1);
(333,335,1); (338,335,1); (334,336,1); (349,336,1); (330,337,1); (334,337,1); (339,337,1); (335,338,1); (350,338,1); (374,338,1); (337,339,1); (340,339,1);
(469,339,1); (329,340,1); (339,340,1); (343,340,1); (468,340,1); (342,341,1); (353,341,1); (341,342,1); (325,343,1); (340,343,1); (259,344,1); (345,344,2);
(375,344,1); (344,345,2); (390,345,1); (332,346,1); (355,346,1); (348,347,1); (347,348,1); (284,349,1); (336,349,1); (352,349,1); (317,350,1); (338,350,1);
(351,350,1); (373,350,1); (350,351,1); (353,351,1); (349,352,1); (390,352,1); (431,352,1); (341,353,1); (351,353,1); (403,353,1); (314,354,1); (363,354,1);
(346,355,1); (394,355,1); (362,356,1); (313,357,1); (358,357,1); (359,357,1); (521,357,1); (357,358,1); (401,358,1); (312,359,1); (357,359,1); (360,359,1);
(491,359,1); (359,360,1); (361,360,1); (379,360,1); (360,361,1); (363,361,1); (356,362,1); (364,362,1); (366,362,1); (354,363,1); (361,363,1); (364,363,1);
(362,364,1); (363,364,1); (366,364,1); (366,365,1); (362,366,1); (364,366,1); (365,366,1); (367,366,1); (366,367,1); (368,367,1); (378,367,1); (367,368,1);
(370,369,1); (375,369,1); (369,370,1); (371,370,1); (319,371,1); (370,371,1); (372,371,1); (417,371,1); (371,372,1); (417,372,1); (350,373,1); (374,373,1);
(409,373,1); (338,374,1); (373,374,1); (412,374,1); (344,375,1); (369,375,1); (376,375,1); (377,375,1); (375,376,1); (391,376,1); (375,377,1); (392,377,1);
(367,378,1); (384,378,1); (360,379,1); (388,379,1); (328,380,1); (398,380,1); (463,380,1); (382,381,1); (381,382,1); (384,382,1); (385,383,1); (386,383,1);
(378,384,1); (382,384,1); (386,384,1); (395,384,1); (383,385,1); (388,385,1); (383,386,1); (384,386,1); (390,387,1); (393,387,1); (419,387,1); (379,388,1);
(385,388,1); (389,388,1); (388,389,1); (493,389,1); (345,390,1); (352,390,1); (387,390,1); (433,390,1); (376,391,1); (392,391,1); (396,391,1); (377,392,1);
(391,392,1); (393,392,1); (387,393,1); (392,393,1); (355,394,1); (408,394,1); (384,395,1); (400,395,1); (391,396,1); (406,396,1); (406,397,1); (326,398,1);
(380,398,1); (405,398,1); (320,399,1); (402,399,1); (395,400,1); (411,400,1); (358,401,1); (404,401,1); (399,402,1); (403,402,1); (404,402,1); (353,403,1);
(402,403,1); (401,404,1); (402,404,1); (407,404,1); (425,404,1); (398,405,1); (415,405,1); (463,405,1); (396,406,1); (397,406,1); (410,406,1); (404,407,1);
(464,407,1); (394,408,1); (421,408,1); (373,409,1); (441,409,1); (406,410,1); (418,410,1); (432,410,1); (400,411,1); (416,411,1); (520,411,1); (374,412,1);
(413,412,1); (412,413,1); (415,413,1); (594,413,1); (324,414,1); (457,414,1); (405,415,1); (413,415,1); (411,416,1); (371,417,1); (372,417,1); (418,417,1);
(410,418,1); (417,418,1); (422,418,1); (387,419,1); (423,419,1); (421,420,1); (424,420,1); (408,421,1); (420,421,1); (426,421,1); (418,422,1); (424,422,1);
(419,423,1); (435,423,1); (455,423,1); (420,424,1); (422,424,1); (427,424,1); (404,425,1); (462,425,1); (421,426,1); (427,426,1); (424,427,1); (426,427,1);
(428,427,1); (427,428,1); (429,428,1); (428,429,1); (434,429,1); (438,430,1); (352,431,1); (494,431,1); (410,432,1); (434,432,1); (390,433,1); (461,433,1);
(429,434,1); (432,434,1); (436,434,1); (437,434,1); (423,435,1); (466,435,1); (434,436,1); (439,436,1); (434,437,1); (445,437,1); (430,438,1); (440,438,1);
(436,439,1); (440,439,1); (438,440,1); (439,440,1); (442,440,1); (409,441,1); (444,441,1); (534,441,1); (440,442,1); (443,442,1); (442,443,1); (441,444,1);
(462,444,1); (437,445,1); (446,445,1); (445,446,1); (447,446,1); (448,446,1); (446,447,1); (452,447,1); (446,448,1); (458,448,1); (457,449,1); (504,449,1);
(451,450,1); (454,450,1); (450,451,1); (452,451,1); (453,451,1); (447,452,1); (451,452,1); (451,453,1); (503,453,1); (450,454,1); (456,454,1); (423,455,1);
(456,455,1); (454,456,1); (455,456,1); (459,456,1); (414,457,1); (449,457,1); (547,457,1); (448,458,1); (456,459,1); (460,459,1); (459,460,1); (467,460,1);
(433,461,1); (477,461,1); (487,461,1); (425,462,1); (444,462,1); (465,462,1); (380,463,1); (405,463,1); (513,463,1); (407,464,1); (523,464,1); (462,465,1);
(524,465,1); (435,466,1); (470,466,1); (460,467,1); (470,467,1); (340,468,1); (469,468,1); (536,468,1); (339,469,1); (468,469,1); (535,469,1); (466,470,1);
(467,470,1); (471,470,1); (473,470,1); (470,471,1); (474,471,1); (475,472,1); (476,472,1); (470,473,1); (484,473,1); (471,474,1); (476,474,1); (472,475,1);
(477,475,1); (472,476,1); (474,476,1); (478,476,1); (461,477,1); (475,477,1); (479,477,1); (476,478,1); (480,478,1); (477,479,1); (482,479,1); (478,480,1);
(481,480,1); (480,481,1); (482,481,1); (479,482,1)].
Definition minnesota_A_3 : list (N * N * N) := [
(481,482,1); (483,482,1); (485,482,1); (482,483,1); (488,483,1); (473,484,1); (499,484,1); (482,485,1); (486,485,1); (485,486,1); (492,486,1); (461,487,1);
(489,487,1); (483,488,1); (489,488,1); (487,489,1); (488,489,1); (490,489,1); (489,490,1); (497,490,1); (359,491,1); (496,491,1); (486,492,1); (506,492,1);
(389,493,1); (496,493,1); (431,494,1); (502,494,1); (529,494,1); (558,494,1); (498,495,1); (502,495,1); (491,496,1); (493,496,1); (500,496,1); (501,496,1);
(490,497,1); (505,497,1); (495,498,1); (506,498,1); (484,499,1); (503,499,1); (496,500,1); (507,500,1); (496,501,1); (516,501,1); (494,502,1); (495,502,1);
(509,502,1); (453,503,1); (499,503,1); (526,503,1); (449,504,1); (556,504,1); (497,505,1); (510,505,1); (492,506,1); (498,506,1); (511,506,1); (500,507,1);
(519,507,1); (524,508,1); (502,509,1); (510,509,1); (505,510,1); (509,510,1); (511,510,1); (515,510,1); (506,511,1); (510,511,1); (522,512,1); (526,512,1);
(463,513,1); (588,513,1); (521,514,1); (523,514,1); (510,515,1); (557,515,1); (501,516,1); (517,516,1); (520,516,1); (531,516,1); (516,517,1); (519,517,1);
(519,518,1); (521,518,1); (507,519,1); (517,519,1); (518,519,1); (528,519,1); (411,520,1); (516,520,1); (533,520,1); (357,521,1); (514,521,1); (518,521,1);
(512,522,1); (464,523,1); (514,523,1); (539,523,1); (465,524,1); (508,524,1); (538,524,1); (526,525,1); (503,526,1); (512,526,1); (525,526,1); (575,527,1);
(519,528,1); (532,528,1); (494,529,1); (537,529,1); (534,530,1); (516,531,1); (623,531,1); (528,532,1); (541,532,1); (520,533,1); (616,533,1); (441,534,1);
(530,534,1); (566,534,1); (469,535,1); (536,535,1); (537,535,1); (468,536,1); (535,536,1); (548,536,1); (529,537,1); (535,537,1); (564,537,1); (524,538,1);
(545,538,1); (551,538,1); (523,539,1); (540,539,1); (542,539,1); (539,540,1); (545,540,1); (595,540,1); (532,541,1); (544,541,1); (539,542,1); (543,542,1);
(542,543,1); (544,543,1); (541,544,1); (543,544,1); (546,544,1); (538,545,1); (540,545,1); (573,545,1); (544,546,1); (552,546,1); (457,547,1); (553,547,1);
(536,548,1); (549,548,1); (550,548,1); (548,549,1); (593,549,1); (603,549,1); (548,550,1); (555,550,1); (538,551,1); (563,551,1); (576,551,1); (546,552,1);
(592,552,1); (547,553,1); (554,553,1); (555,553,1); (553,554,1); (578,554,1); (550,555,1); (553,555,1); (591,555,1); (504,556,1); (577,556,1); (515,557,1);
(561,557,1); (494,558,1); (559,558,1); (565,558,1); (558,559,1); (560,559,1); (571,559,1); (559,560,1); (561,560,1); (557,561,1); (560,561,1); (562,561,1);
(561,562,1); (568,562,1); (551,563,1); (566,563,1); (537,564,1); (565,564,1); (638,564,1); (558,565,1); (564,565,1); (534,566,1); (563,566,1); (569,566,1);
(580,566,1); (569,567,1); (576,567,1); (562,568,1); (570,568,1); (566,569,1); (567,569,1); (579,569,1); (568,570,1); (571,570,1); (572,570,1); (559,571,1);
(570,571,1); (570,572,1); (574,572,1); (545,573,1); (609,573,1); (625,573,1); (572,574,1); (648,574,1); (527,575,1); (652,575,1); (551,576,1); (567,576,1);
(605,576,1); (556,577,1); (581,577,1); (554,578,1); (581,578,1); (569,579,1); (607,579,1); (566,580,1); (583,580,1); (577,581,1); (578,581,1); (582,581,1);
(590,581,1); (581,582,1); (585,582,1); (586,582,1); (580,583,1); (584,583,1); (583,584,1); (601,584,1); (607,584,1); (582,585,1); (588,585,1); (582,586,1);
(587,586,1); (608,586,1); (586,587,1); (590,587,1); (513,588,1); (585,588,1); (597,588,1); (590,589,1); (591,589,1); (581,590,1); (587,590,1); (589,590,1);
(658,590,1); (555,591,1); (589,591,1); (613,591,1); (552,592,1); (599,592,1); (549,593,1); (603,593,1); (610,593,1); (413,594,1); (596,594,1); (597,594,1);
(540,595,1); (600,595,1); (594,596,1); (598,596,1); (588,597,1); (594,597,1); (596,598,1); (601,598,1); (678,598,1); (592,599,1); (600,599,1); (604,599,1);
(595,600,1); (599,600,1); (602,600,1); (584,601,1); (598,601,1); (600,602,1); (611,602,1); (549,603,1); (593,603,1); (635,603,1); (599,604,1); (612,604,1);
(576,605,1); (606,605,1); (609,605,1); (659,605,1); (605,606,1); (607,606,1); (579,607,1); (584,607,1); (606,607,1); (734,607,1); (586,608,1); (657,608,1);
(573,609,1); (605,609,1); (625,609,1); (593,610,1); (613,610,1); (602,611,1); (621,611,1); (604,612,1); (614,612,1); (591,613,1); (610,613,1); (637,613,1);
(612,614,1); (619,614,1); (616,615,1); (533,616,1); (615,616,1); (622,616,1); (619,617,1); (621,617,1); (619,618,1); (624,618,1); (614,619,1); (617,619,1);
(618,619,1); (620,619,1); (619,620,1); (627,620,1); (611,621,1); (617,621,1); (628,621,1); (616,622,1); (623,622,1); (632,622,1); (531,623,1); (622,623,1);
(624,623,1); (618,624,1); (623,624,1); (573,625,1); (609,625,1); (626,625,1); (672,625,1); (625,626,1); (628,626,1); (620,627,1); (629,627,1); (621,628,1);
(626,628,1); (630,628,1); (636,628,1); (627,629,1); (633,629,1); (628,630,1); (634,630,1); (632,631,1); (622,632,1); (631,632,1); (647,632,1); (629,633,1);
(634,633,1); (630,634,1); (633,634,1); (642,634,1); (603,635,1); (640,635,1); (628,636,1); (641,636,1); (613,637,1); (669,637,1); (564,638,1); (639,638,1);
(643,638,1); (656,638,1); (638,639,1); (651,639,1); (635,640,1); (643,640,1); (660,640,1); (636,641,1); (644,641,1); (634,642,1); (644,642,1); (638,643,1);
(640,643,1); (641,644,1); (642,644,1); (645,644,1)].
Definition minnesota_A_4 : list (N * N * N) := [
(646,644,1); (644,645,1); (671,645,1); (644,646,1); (670,646,1); (632,647,1); (684,647,1); (689,647,1); (574,648,1); (649,648,1); (648,649,1); (650,649,1);
(652,649,1); (653,649,1); (649,650,1); (651,650,1); (639,651,1); (650,651,1); (655,651,1); (575,652,1); (649,652,1); (649,653,1); (654,653,1); (653,654,1);
(661,654,1); (651,655,1); (662,655,1); (638,656,1); (667,656,1); (608,657,1); (682,657,1); (590,658,1); (692,658,1); (605,659,1); (664,659,1); (673,659,1);
(640,660,1); (666,660,1); (669,660,1); (654,661,1); (663,661,1); (655,662,1); (663,662,1); (661,663,1); (662,663,1); (665,663,1); (659,664,1); (663,665,1);
(695,665,1); (660,666,1); (667,666,1); (668,666,1); (656,667,1); (666,667,1); (759,667,1); (666,668,1); (707,668,1); (637,669,1); (660,669,1); (681,669,1);
(646,670,1); (690,670,1); (645,671,1); (686,671,1); (625,672,1); (674,672,1); (659,673,1); (754,673,1); (672,674,1); (675,674,1); (674,675,1); (676,675,1);
(675,676,1); (685,676,1); (679,677,1); (598,678,1); (679,678,1); (705,678,1); (677,679,1); (678,679,1); (682,679,1); (706,679,1); (681,680,1); (692,680,1);
(669,681,1); (680,681,1); (725,681,1); (657,682,1); (679,682,1); (703,682,1); (684,683,1); (647,684,1); (683,684,1); (689,684,1); (694,684,1); (676,685,1);
(688,685,1); (671,686,1); (688,686,1); (689,687,1); (690,687,1); (685,688,1); (686,688,1); (691,688,1); (647,689,1); (684,689,1); (687,689,1); (693,689,1);
(670,690,1); (687,690,1); (715,690,1); (688,691,1); (697,691,1); (658,692,1); (680,692,1); (723,692,1); (689,693,1); (745,693,1); (684,694,1); (763,694,1);
(665,695,1); (701,695,1); (700,696,1); (691,697,1); (704,697,1); (699,698,1); (735,698,1); (698,699,1); (701,699,1); (696,700,1); (701,700,1); (695,701,1);
(699,701,1); (700,701,1); (702,701,1); (701,702,1); (727,702,1); (682,703,1); (708,703,1); (711,703,1); (697,704,1); (710,704,1); (678,705,1); (706,705,1);
(718,705,1); (679,706,1); (705,706,1); (711,706,1); (668,707,1); (713,707,1); (703,708,1); (716,708,1); (710,709,1); (717,709,1); (704,710,1); (709,710,1);
(714,710,1); (703,711,1); (706,711,1); (712,711,1); (719,711,1); (711,712,1); (716,712,1); (707,713,1); (722,713,1); (710,714,1); (764,714,1); (690,715,1);
(717,715,1); (755,715,1); (708,716,1); (712,716,1); (720,716,1); (709,717,1); (715,717,1); (705,718,1); (728,718,1); (711,719,1); (733,719,1); (716,720,1);
(721,720,1); (720,721,1); (726,721,1); (713,722,1); (784,722,1); (692,723,1); (724,723,1); (741,723,1); (723,724,1); (725,724,1); (681,725,1); (724,725,1);
(794,725,1); (721,726,1); (737,726,1); (702,727,1); (730,727,1); (718,728,1); (729,728,1); (733,728,1); (728,729,1); (732,729,1); (727,730,1); (735,730,1);
(739,730,1); (732,731,1); (734,731,1); (729,732,1); (731,732,1); (753,732,1); (719,733,1); (728,733,1); (736,733,1); (742,733,1); (607,734,1); (731,734,1);
(756,734,1); (698,735,1); (730,735,1); (747,735,1); (733,736,1); (737,736,1); (726,737,1); (736,737,1); (738,737,1); (740,737,1); (737,738,1); (741,738,1);
(730,739,1); (800,739,1); (737,740,1); (743,740,1); (723,741,1); (738,741,1); (785,741,1); (733,742,1); (746,742,1); (740,743,1); (744,743,1); (743,744,1);
(748,744,1); (693,745,1); (749,745,1); (742,746,1); (748,746,1); (735,747,1); (752,747,1); (790,747,1); (744,748,1); (746,748,1); (750,748,1); (745,749,1);
(751,749,1); (748,750,1); (786,750,1); (749,751,1); (787,751,1); (747,752,1); (759,752,1); (732,753,1); (795,753,1); (673,754,1); (757,754,1); (715,755,1);
(780,755,1); (781,755,1); (734,756,1); (760,756,1); (796,756,1); (754,757,1); (758,757,1); (766,757,1); (757,758,1); (761,758,1); (667,759,1); (752,759,1);
(768,759,1); (756,760,1); (761,760,1); (758,761,1); (760,761,1); (775,761,1); (763,762,1); (694,763,1); (762,763,1); (789,763,1); (714,764,1); (770,764,1);
(767,765,1); (779,765,1); (757,766,1); (767,766,1); (769,766,1); (765,767,1); (766,767,1); (759,768,1); (782,768,1); (821,768,1); (766,769,1); (771,769,1);
(764,770,1); (772,770,1); (769,771,1); (772,771,1); (770,772,1); (771,772,1); (773,772,1); (774,772,1); (772,773,1); (778,773,1); (772,774,1); (811,774,1);
(761,775,1); (777,775,1); (777,776,1); (783,776,1); (775,777,1); (776,777,1); (778,777,1); (773,778,1); (777,778,1); (765,779,1); (780,779,1); (755,780,1);
(779,780,1); (781,780,1); (788,780,1); (755,781,1); (780,781,1); (787,781,1); (807,781,1); (768,782,1); (784,782,1); (820,782,1); (776,783,1); (798,783,1);
(722,784,1); (782,784,1); (793,784,1); (741,785,1); (815,785,1); (750,786,1); (812,786,1); (751,787,1); (781,787,1); (791,787,1); (808,787,1); (780,788,1);
(806,788,1); (763,789,1); (792,789,1); (861,789,1); (747,790,1); (809,790,1); (787,791,1); (792,791,1); (789,792,1); (791,792,1); (880,792,1); (784,793,1);
(805,793,1); (725,794,1); (805,794,1); (814,794,1); (753,795,1); (797,795,1); (756,796,1); (813,796,1); (795,797,1); (813,797,1); (783,798,1); (826,798,1);
(802,799,1); (739,800,1); (803,800,1); (803,801,1); (810,801,1); (799,802,1); (803,802,1); (800,803,1); (801,803,1); (802,803,1); (804,803,1); (803,804,1);
(823,804,1); (793,805,1); (794,805,1); (814,805,1); (824,805,1); (788,806,1); (838,806,1); (781,807,1); (854,807,1); (787,808,1); (860,808,1); (790,809,1);
(810,809,1); (822,809,1); (801,810,1); (809,810,1)].
Definition minnesota_A_5 : list (N * N * N) := [
(774,811,1); (838,811,1); (786,812,1); (818,812,1); (843,812,1); (796,813,1); (797,813,1); (825,813,1); (794,814,1); (805,814,1); (824,814,1); (828,814,1);
(785,815,1); (816,815,1); (839,815,1); (815,816,1); (817,816,1); (886,816,1); (816,817,1); (887,817,1); (812,818,1); (819,818,1); (818,819,1); (841,819,1);
(844,819,1); (782,820,1); (873,820,1); (768,821,1); (833,821,1); (809,822,1); (833,822,1); (804,823,1); (940,823,1); (805,824,1); (814,824,1); (864,824,1);
(813,825,1); (827,825,1); (798,826,1); (827,826,1); (825,827,1); (826,827,1); (829,827,1); (830,827,1); (814,828,1); (839,828,1); (827,829,1); (834,829,1);
(827,830,1); (831,830,1); (830,831,1); (832,831,1); (961,831,1); (831,832,1); (842,832,1); (821,833,1); (822,833,1); (875,833,1); (829,834,1); (835,834,1);
(834,835,1); (836,835,1); (837,835,1); (835,836,1); (870,836,1); (835,837,1); (970,837,1); (806,838,1); (811,838,1); (840,838,1); (842,838,1); (815,839,1);
(828,839,1); (868,839,1); (879,839,1); (838,840,1); (842,840,1); (850,840,1); (819,841,1); (848,841,1); (832,842,1); (838,842,1); (840,842,1); (947,842,1);
(812,843,1); (845,843,1); (819,844,1); (853,844,1); (908,844,1); (843,845,1); (846,845,1); (847,845,1); (845,846,1); (906,846,1); (845,847,1); (859,847,1);
(841,848,1); (852,848,1); (863,848,1); (850,849,1); (851,849,1); (840,850,1); (849,850,1); (974,850,1); (849,851,1); (854,851,1); (848,852,1); (853,852,1);
(844,853,1); (852,853,1); (867,853,1); (910,853,1); (807,854,1); (851,854,1); (855,854,1); (866,854,1); (854,855,1); (902,855,1); (857,856,1); (856,857,1);
(858,857,1); (857,858,1); (861,858,1); (847,859,1); (862,859,1); (872,859,1); (808,860,1); (866,860,1); (789,861,1); (858,861,1); (876,861,1); (859,862,1);
(863,862,1); (848,863,1); (862,863,1); (865,863,1); (824,864,1); (890,864,1); (894,864,1); (863,865,1); (877,865,1); (913,865,1); (854,866,1); (860,866,1);
(878,866,1); (853,867,1); (913,867,1); (839,868,1); (869,868,1); (879,868,1); (920,868,1); (868,869,1); (891,869,1); (836,870,1); (882,870,1); (873,871,1);
(894,871,1); (859,872,1); (874,872,1); (820,873,1); (871,873,1); (896,873,1); (967,873,1); (872,874,1); (877,874,1); (833,875,1); (881,875,1); (885,875,1);
(861,876,1); (900,876,1); (865,877,1); (874,877,1); (866,878,1); (883,878,1); (892,878,1); (839,879,1); (868,879,1); (886,879,1); (792,880,1); (900,880,1);
(875,881,1); (888,881,1); (870,882,1); (884,882,1); (903,882,1); (878,883,1); (899,883,1); (902,883,1); (882,884,1); (908,884,1); (875,885,1); (898,885,1);
(816,886,1); (879,886,1); (889,886,1); (817,887,1); (893,887,1); (881,888,1); (897,888,1); (886,889,1); (909,889,1); (864,890,1); (891,890,1); (894,890,1);
(904,890,1); (869,891,1); (890,891,1); (904,891,1); (878,892,1); (901,892,1); (887,893,1); (864,894,1); (871,894,1); (890,894,1); (905,894,1); (897,895,1);
(938,895,1); (873,896,1); (898,896,1); (888,897,1); (895,897,1); (898,897,1); (930,897,1); (885,898,1); (896,898,1); (897,898,1); (932,898,1); (883,899,1);
(911,899,1); (876,900,1); (880,900,1); (901,900,1); (1048,900,1); (892,901,1); (900,901,1); (855,902,1); (883,902,1); (907,902,1); (914,902,1); (882,903,1);
(917,903,1); (890,904,1); (891,904,1); (905,904,1); (921,904,1); (894,905,1); (904,905,1); (923,905,1); (846,906,1); (912,906,1); (902,907,1); (911,907,1);
(844,908,1); (884,908,1); (910,908,1); (919,908,1); (889,909,1); (912,909,1); (853,910,1); (908,910,1); (926,910,1); (899,911,1); (907,911,1); (972,911,1);
(906,912,1); (909,912,1); (915,912,1); (916,912,1); (865,913,1); (867,913,1); (929,913,1); (902,914,1); (958,914,1); (912,915,1); (918,915,1); (912,916,1);
(922,916,1); (903,917,1); (924,917,1); (915,918,1); (929,918,1); (908,919,1); (924,919,1); (868,920,1); (978,920,1); (904,921,1); (928,921,1); (916,922,1);
(933,922,1); (905,923,1); (928,923,1); (917,924,1); (919,924,1); (925,924,1); (927,924,1); (924,925,1); (960,925,1); (910,926,1); (929,926,1); (924,927,1);
(936,927,1); (921,928,1); (923,928,1); (987,928,1); (913,929,1); (918,929,1); (926,929,1); (931,929,1); (897,930,1); (932,930,1); (929,931,1); (934,931,1);
(935,931,1); (953,931,1); (898,932,1); (930,932,1); (964,932,1); (922,933,1); (962,933,1); (931,934,1); (948,934,1); (931,935,1); (937,935,1); (927,936,1);
(939,936,1); (935,937,1); (939,937,1); (895,938,1); (945,938,1); (936,939,1); (937,939,1); (941,939,1); (943,939,1); (823,940,1); (944,940,1); (939,941,1);
(960,941,1); (944,942,1); (980,942,1); (939,943,1); (951,943,1); (940,944,1); (942,944,1); (945,944,1); (946,944,1); (938,945,1); (944,945,1); (944,946,1);
(998,946,1); (842,947,1); (959,947,1); (934,948,1); (950,948,1); (950,949,1); (952,949,1); (948,950,1); (949,950,1); (951,950,1); (954,950,1); (943,951,1);
(950,951,1); (949,952,1); (956,952,1); (931,953,1); (955,953,1); (950,954,1); (1022,954,1); (953,955,1); (956,955,1); (952,956,1); (955,956,1); (957,956,1);
(956,957,1); (968,957,1); (914,958,1); (971,958,1); (947,959,1); (961,959,1); (973,959,1); (925,960,1); (941,960,1); (992,960,1); (1013,960,1); (831,961,1);
(959,961,1); (969,961,1); (933,962,1); (963,962,1); (978,962,1); (962,963,1); (966,963,1); (932,964,1); (965,964,1); (964,965,1); (983,965,1); (963,966,1);
(975,966,1); (873,967,1); (982,967,1); (957,968,1)].
Definition minnesota_A_6 : list (N * N * N) := [
(975,968,1); (961,969,1); (984,969,1); (837,970,1); (984,970,1); (958,971,1); (1023,971,1); (911,972,1); (1078,972,1); (959,973,1); (1006,973,1); (850,974,1);
(1023,974,1); (966,975,1); (968,975,1); (976,975,1); (977,975,1); (975,976,1); (1082,976,1); (975,977,1); (1037,977,1); (920,978,1); (962,978,1); (994,978,1);
(980,979,1); (942,980,1); (979,980,1); (991,980,1); (983,981,1); (990,981,1); (967,982,1); (986,982,1); (1007,982,1); (1008,982,1); (965,983,1); (981,983,1);
(989,983,1); (1021,983,1); (969,984,1); (970,984,1); (985,984,1); (984,985,1); (992,985,1); (982,986,1); (990,986,1); (1019,986,1); (928,987,1); (1033,987,1);
(989,988,1); (993,988,1); (983,989,1); (988,989,1); (981,990,1); (986,990,1); (1015,990,1); (980,991,1); (1016,991,1); (1053,991,1); (960,992,1); (985,992,1);
(996,992,1); (1010,992,1); (988,993,1); (997,993,1); (1005,993,1); (978,994,1); (1004,994,1); (1028,994,1); (1006,995,1); (1024,995,1); (992,996,1); (1060,996,1);
(993,997,1); (999,997,1); (946,998,1); (1000,998,1); (997,999,1); (1000,999,1); (998,1000,1); (999,1000,1); (1001,1000,1); (1002,1000,1); (1000,1001,1); (1052,1001,1);
(1000,1002,1); (1051,1002,1); (1004,1003,1); (1030,1003,1); (994,1004,1); (1003,1004,1); (1028,1004,1); (993,1005,1); (1009,1005,1); (973,1006,1); (995,1006,1); (1060,1006,1);
(1143,1006,1); (982,1007,1); (1008,1007,1); (1036,1007,1); (982,1008,1); (1007,1008,1); (1019,1008,1); (1043,1008,1); (1005,1009,1); (1034,1009,1); (992,1010,1); (1014,1010,1);
(1012,1011,1); (1026,1011,1); (1011,1012,1); (1014,1012,1); (960,1013,1); (1026,1013,1); (1010,1014,1); (1012,1014,1); (1203,1014,1); (990,1015,1); (1018,1015,1); (1020,1015,1);
(991,1016,1); (1017,1016,1); (1054,1016,1); (1016,1017,1); (1015,1018,1); (1021,1018,1); (986,1019,1); (1008,1019,1); (1020,1019,1); (1042,1019,1); (1015,1020,1); (1019,1020,1);
(1046,1020,1); (983,1021,1); (1018,1021,1); (1148,1021,1); (954,1022,1); (1025,1022,1); (1047,1022,1); (1075,1022,1); (971,1023,1); (974,1023,1); (1024,1023,1); (1027,1023,1);
(995,1024,1); (1023,1024,1); (1187,1024,1); (1022,1025,1); (1026,1025,1); (1011,1026,1); (1013,1026,1); (1025,1026,1); (1023,1027,1); (1078,1027,1); (1212,1027,1); (994,1028,1);
(1004,1028,1); (1029,1028,1); (1028,1029,1); (1031,1029,1); (1003,1030,1); (1032,1030,1); (1029,1031,1); (1035,1031,1); (1056,1031,1); (1030,1032,1); (1061,1032,1); (987,1033,1);
(1038,1033,1); (1061,1033,1); (1009,1034,1); (1072,1034,1); (1031,1035,1); (1044,1035,1); (1007,1036,1); (1041,1036,1); (977,1037,1); (1044,1037,1); (1033,1038,1); (1039,1038,1);
(1038,1039,1); (1041,1039,1); (1045,1040,1); (1058,1040,1); (1036,1041,1); (1039,1041,1); (1019,1042,1); (1088,1042,1); (1008,1043,1); (1139,1043,1); (1035,1044,1); (1037,1044,1);
(1050,1044,1); (1055,1044,1); (1040,1045,1); (1048,1045,1); (1062,1045,1); (1020,1046,1); (1088,1046,1); (1022,1047,1); (1086,1047,1); (900,1048,1); (1045,1048,1); (1049,1048,1);
(1062,1048,1); (1048,1049,1); (1078,1049,1); (1044,1050,1); (1065,1050,1); (1002,1051,1); (1059,1051,1); (1001,1052,1); (1064,1052,1); (991,1053,1); (1063,1053,1); (1016,1054,1);
(1096,1054,1); (1044,1055,1); (1140,1055,1); (1031,1056,1); (1057,1056,1); (1070,1056,1); (1056,1057,1); (1067,1057,1); (1040,1058,1); (1051,1059,1); (1068,1059,1); (996,1060,1);
(1006,1060,1); (1143,1060,1); (1032,1061,1); (1033,1061,1); (1071,1061,1); (1101,1061,1); (1045,1062,1); (1048,1062,1); (1094,1062,1); (1053,1063,1); (1069,1063,1); (1052,1064,1);
(1069,1064,1); (1050,1065,1); (1067,1065,1); (1068,1066,1); (1069,1066,1); (1057,1067,1); (1065,1067,1); (1077,1067,1); (1059,1068,1); (1066,1068,1); (1076,1068,1); (1063,1069,1);
(1064,1069,1); (1066,1069,1); (1093,1069,1); (1056,1070,1); (1080,1070,1); (1109,1070,1); (1061,1071,1); (1080,1071,1); (1034,1072,1); (1073,1072,1); (1072,1073,1); (1074,1073,1);
(1132,1073,1); (1073,1074,1); (1081,1074,1); (1022,1075,1); (1306,1075,1); (1068,1076,1); (1079,1076,1); (1067,1077,1); (1110,1077,1); (972,1078,1); (1027,1078,1); (1049,1078,1);
(1131,1078,1); (1076,1079,1); (1084,1079,1); (1070,1080,1); (1071,1080,1); (1117,1080,1); (1074,1081,1); (1083,1081,1); (976,1082,1); (1089,1082,1); (1108,1082,1); (1081,1083,1);
(1084,1083,1); (1079,1084,1); (1083,1084,1); (1085,1084,1); (1084,1085,1); (1087,1085,1); (1047,1086,1); (1089,1086,1); (1311,1086,1); (1085,1087,1); (1095,1087,1); (1042,1088,1);
(1046,1088,1); (1141,1088,1); (1082,1089,1); (1086,1089,1); (1108,1089,1); (1091,1090,1); (1092,1090,1); (1090,1091,1); (1100,1091,1); (1090,1092,1); (1093,1092,1); (1069,1093,1);
(1092,1093,1); (1098,1093,1); (1062,1094,1); (1106,1094,1); (1119,1094,1); (1087,1095,1); (1099,1095,1); (1054,1096,1); (1097,1096,1); (1144,1096,1); (1096,1097,1); (1100,1097,1);
(1156,1097,1); (1093,1098,1); (1102,1098,1); (1152,1098,1); (1095,1099,1); (1105,1099,1); (1091,1100,1); (1097,1100,1); (1153,1100,1); (1061,1101,1); (1103,1101,1); (1098,1102,1);
(1104,1102,1); (1101,1103,1); (1139,1103,1); (1102,1104,1); (1105,1104,1); (1099,1105,1); (1104,1105,1); (1107,1105,1); (1094,1106,1); (1202,1106,1); (1105,1107,1); (1116,1107,1);
(1082,1108,1); (1089,1108,1); (1164,1108,1); (1355,1108,1); (1070,1109,1); (1111,1109,1); (1077,1110,1); (1111,1110,1); (1109,1111,1); (1110,1111,1); (1112,1111,1); (1114,1111,1);
(1111,1112,1); (1113,1112,1); (1114,1112,1); (1112,1113,1); (1133,1113,1); (1111,1114,1); (1112,1114,1); (1115,1114,1); (1114,1115,1); (1120,1115,1); (1107,1116,1); (1121,1116,1);
(1080,1117,1); (1130,1117,1); (1134,1118,1); (1136,1118,1); (1094,1119,1); (1131,1119,1); (1115,1120,1); (1123,1120,1); (1116,1121,1); (1122,1121,1); (1121,1122,1); (1126,1122,1);
(1137,1122,1); (1120,1123,1); (1124,1123,1); (1125,1123,1); (1123,1124,1); (1128,1124,1); (1123,1125,1); (1127,1125,1); (1122,1126,1); (1158,1126,1); (1125,1127,1); (1133,1127,1);
(1138,1127,1); (1124,1128,1); (1149,1128,1); (1130,1129,1)].
Definition minnesota_A_7 : list (N * N * N) := [
(1142,1129,1); (1117,1130,1); (1129,1130,1); (1134,1130,1); (1146,1130,1); (1078,1131,1); (1119,1131,1); (1150,1131,1); (1073,1132,1); (1151,1132,1); (1113,1133,1); (1127,1133,1);
(1174,1133,1); (1199,1133,1); (1118,1134,1); (1130,1134,1); (1135,1134,1); (1181,1134,1); (1134,1135,1); (1136,1135,1); (1118,1136,1); (1135,1136,1); (1160,1136,1); (1122,1137,1);
(1183,1137,1); (1127,1138,1); (1142,1138,1); (1043,1139,1); (1103,1139,1); (1141,1139,1); (1162,1139,1); (1055,1140,1); (1167,1140,1); (1088,1141,1); (1139,1141,1); (1147,1141,1);
(1129,1142,1); (1138,1142,1); (1154,1142,1); (1006,1143,1); (1060,1143,1); (1194,1143,1); (1096,1144,1); (1156,1144,1); (1165,1144,1); (1166,1145,1); (1130,1146,1); (1155,1146,1);
(1141,1147,1); (1148,1147,1); (1218,1147,1); (1021,1148,1); (1147,1148,1); (1151,1148,1); (1224,1148,1); (1128,1149,1); (1155,1149,1); (1131,1150,1); (1198,1150,1); (1210,1150,1);
(1132,1151,1); (1148,1151,1); (1157,1151,1); (1169,1151,1); (1098,1152,1); (1153,1152,1); (1196,1152,1); (1100,1153,1); (1152,1153,1); (1156,1153,1); (1225,1153,1); (1142,1154,1);
(1178,1154,1); (1206,1154,1); (1146,1155,1); (1149,1155,1); (1159,1155,1); (1161,1155,1); (1097,1156,1); (1144,1156,1); (1153,1156,1); (1151,1157,1); (1192,1157,1); (1126,1158,1);
(1171,1158,1); (1155,1159,1); (1179,1159,1); (1136,1160,1); (1163,1160,1); (1166,1160,1); (1155,1161,1); (1168,1161,1); (1139,1162,1); (1163,1162,1); (1160,1163,1); (1162,1163,1);
(1250,1163,1); (1108,1164,1); (1170,1164,1); (1144,1165,1); (1197,1165,1); (1217,1165,1); (1145,1166,1); (1160,1166,1); (1213,1166,1); (1140,1167,1); (1170,1167,1); (1161,1168,1);
(1178,1168,1); (1180,1168,1); (1151,1169,1); (1173,1169,1); (1164,1170,1); (1167,1170,1); (1175,1170,1); (1177,1170,1); (1158,1171,1); (1172,1171,1); (1171,1172,1); (1173,1172,1);
(1169,1173,1); (1172,1173,1); (1176,1173,1); (1133,1174,1); (1175,1174,1); (1170,1175,1); (1174,1175,1); (1182,1175,1); (1173,1176,1); (1242,1176,1); (1170,1177,1); (1182,1177,1);
(1185,1177,1); (1154,1178,1); (1168,1178,1); (1186,1178,1); (1205,1178,1); (1159,1179,1); (1184,1179,1); (1168,1180,1); (1181,1180,1); (1134,1181,1); (1180,1181,1); (1186,1181,1);
(1209,1181,1); (1175,1182,1); (1177,1182,1); (1200,1182,1); (1137,1183,1); (1188,1183,1); (1179,1184,1); (1193,1184,1); (1177,1185,1); (1211,1185,1); (1214,1185,1); (1178,1186,1);
(1181,1186,1); (1201,1186,1); (1024,1187,1); (1232,1187,1); (1183,1188,1); (1189,1188,1); (1191,1188,1); (1195,1188,1); (1188,1189,1); (1190,1189,1); (1189,1190,1); (1196,1190,1);
(1188,1191,1); (1192,1191,1); (1157,1192,1); (1191,1192,1); (1216,1192,1); (1184,1193,1); (1207,1193,1); (1143,1194,1); (1204,1194,1); (1188,1195,1); (1237,1195,1); (1152,1196,1);
(1190,1196,1); (1247,1196,1); (1165,1197,1); (1217,1197,1); (1225,1197,1); (1150,1198,1); (1208,1198,1); (1133,1199,1); (1206,1199,1); (1182,1200,1); (1297,1200,1); (1186,1201,1);
(1227,1201,1); (1106,1202,1); (1208,1202,1); (1223,1202,1); (1014,1203,1); (1215,1203,1); (1222,1203,1); (1194,1204,1); (1240,1204,1); (1252,1204,1); (1178,1205,1); (1206,1205,1);
(1228,1205,1); (1154,1206,1); (1199,1206,1); (1205,1206,1); (1229,1206,1); (1193,1207,1); (1230,1207,1); (1198,1208,1); (1202,1208,1); (1310,1208,1); (1181,1209,1); (1219,1209,1);
(1150,1210,1); (1269,1210,1); (1185,1211,1); (1349,1211,1); (1027,1212,1); (1271,1212,1); (1166,1213,1); (1219,1213,1); (1185,1214,1); (1348,1214,1); (1203,1215,1); (1220,1215,1);
(1536,1215,1); (1192,1216,1); (1244,1216,1); (1165,1217,1); (1197,1217,1); (1318,1217,1); (1147,1218,1); (1224,1218,1); (1231,1218,1); (1254,1218,1); (1209,1219,1); (1213,1219,1);
(1248,1219,1); (1215,1220,1); (1240,1220,1); (1223,1221,1); (1203,1222,1); (1238,1222,1); (1202,1223,1); (1221,1223,1); (1414,1223,1); (1148,1224,1); (1218,1224,1); (1241,1224,1);
(1254,1224,1); (1153,1225,1); (1197,1225,1); (1233,1225,1); (1227,1226,1); (1228,1226,1); (1201,1227,1); (1226,1227,1); (1234,1227,1); (1205,1228,1); (1226,1228,1); (1229,1228,1);
(1282,1228,1); (1206,1229,1); (1228,1229,1); (1280,1229,1); (1207,1230,1); (1236,1230,1); (1218,1231,1); (1253,1231,1); (1187,1232,1); (1255,1232,1); (1267,1232,1); (1225,1233,1);
(1235,1233,1); (1314,1233,1); (1227,1234,1); (1236,1234,1); (1233,1235,1); (1259,1235,1); (1301,1235,1); (1230,1236,1); (1234,1236,1); (1239,1236,1); (1249,1236,1); (1195,1237,1);
(1243,1237,1); (1222,1238,1); (1257,1238,1); (1272,1238,1); (1236,1239,1); (1248,1239,1); (1204,1240,1); (1220,1240,1); (1252,1240,1); (1266,1240,1); (1224,1241,1); (1263,1241,1);
(1176,1242,1); (1258,1242,1); (1237,1243,1); (1245,1243,1); (1256,1243,1); (1216,1244,1); (1245,1244,1); (1243,1245,1); (1244,1245,1); (1247,1246,1); (1251,1246,1); (1196,1247,1);
(1246,1247,1); (1274,1247,1); (1219,1248,1); (1239,1248,1); (1250,1248,1); (1236,1249,1); (1275,1249,1); (1163,1250,1); (1248,1250,1); (1253,1250,1); (1298,1250,1); (1246,1251,1);
(1261,1251,1); (1204,1252,1); (1240,1252,1); (1255,1252,1); (1286,1252,1); (1231,1253,1); (1250,1253,1); (1323,1253,1); (1218,1254,1); (1224,1254,1); (1328,1254,1); (1232,1255,1);
(1252,1255,1); (1267,1255,1); (1243,1256,1); (1302,1256,1); (1238,1257,1); (1306,1257,1); (1242,1258,1); (1264,1258,1); (1235,1259,1); (1260,1259,1); (1259,1260,1); (1261,1260,1);
(1262,1260,1); (1251,1261,1); (1260,1261,1); (1260,1262,1); (1273,1262,1); (1241,1263,1); (1264,1263,1); (1258,1264,1); (1263,1264,1); (1265,1264,1); (1264,1265,1); (1284,1265,1);
(1240,1266,1); (1285,1266,1); (1232,1267,1); (1255,1267,1); (1268,1267,1); (1279,1267,1); (1267,1268,1); (1271,1268,1); (1210,1269,1); (1270,1269,1); (1276,1269,1); (1494,1269,1);
(1269,1270,1); (1271,1270,1); (1444,1270,1); (1212,1271,1); (1268,1271,1); (1270,1271,1); (1238,1272,1); (1436,1272,1); (1262,1273,1); (1277,1273,1); (1247,1274,1); (1283,1274,1);
(1249,1275,1); (1287,1275,1); (1269,1276,1); (1310,1276,1); (1273,1277,1); (1278,1277,1); (1283,1277,1); (1277,1278,1); (1301,1278,1); (1321,1278,1); (1267,1279,1); (1292,1279,1);
(1229,1280,1); (1281,1280,1); (1282,1280,1); (1345,1280,1)].
Definition minnesota_A_8 : list (N * N * N) := [
(1280,1281,1); (1296,1281,1); (1228,1282,1); (1280,1282,1); (1294,1282,1); (1346,1282,1); (1274,1283,1); (1277,1283,1); (1316,1283,1); (1265,1284,1); (1293,1284,1); (1266,1285,1);
(1288,1285,1); (1252,1286,1); (1288,1286,1); (1275,1287,1); (1289,1287,1); (1304,1287,1); (1285,1288,1); (1286,1288,1); (1290,1288,1); (1541,1288,1); (1287,1289,1); (1303,1289,1);
(1288,1290,1); (1291,1290,1); (1290,1291,1); (1292,1291,1); (1279,1292,1); (1291,1292,1); (1404,1292,1); (1284,1293,1); (1295,1293,1); (1299,1293,1); (1282,1294,1); (1334,1294,1);
(1293,1295,1); (1315,1295,1); (1281,1296,1); (1300,1296,1); (1312,1296,1); (1200,1297,1); (1300,1297,1); (1250,1298,1); (1305,1298,1); (1293,1299,1); (1326,1299,1); (1296,1300,1);
(1297,1300,1); (1312,1300,1); (1235,1301,1); (1278,1301,1); (1314,1301,1); (1357,1301,1); (1256,1302,1); (1317,1302,1); (1289,1303,1); (1305,1303,1); (1287,1304,1); (1324,1304,1);
(1298,1305,1); (1303,1305,1); (1307,1305,1); (1313,1305,1); (1075,1306,1); (1257,1306,1); (1309,1306,1); (1305,1307,1); (1325,1307,1); (1309,1308,1); (1311,1308,1); (1306,1309,1);
(1308,1309,1); (1438,1309,1); (1208,1310,1); (1276,1310,1); (1409,1310,1); (1086,1311,1); (1308,1311,1); (1355,1311,1); (1296,1312,1); (1300,1312,1); (1343,1312,1); (1367,1312,1);
(1305,1313,1); (1434,1313,1); (1233,1314,1); (1301,1314,1); (1320,1314,1); (1359,1314,1); (1295,1315,1); (1283,1316,1); (1317,1316,1); (1302,1317,1); (1316,1317,1); (1322,1317,1);
(1217,1318,1); (1319,1318,1); (1318,1319,1); (1320,1319,1); (1362,1319,1); (1314,1320,1); (1319,1320,1); (1278,1321,1); (1360,1321,1); (1317,1322,1); (1369,1322,1); (1253,1323,1);
(1330,1323,1); (1304,1324,1); (1341,1324,1); (1307,1325,1); (1331,1325,1); (1299,1326,1); (1339,1326,1); (1329,1327,1); (1331,1327,1); (1254,1328,1); (1336,1328,1); (1327,1329,1);
(1330,1329,1); (1323,1330,1); (1329,1330,1); (1332,1330,1); (1337,1330,1); (1325,1331,1); (1327,1331,1); (1351,1331,1); (1330,1332,1); (1333,1332,1); (1332,1333,1); (1335,1333,1);
(1294,1334,1); (1341,1334,1); (1333,1335,1); (1336,1335,1); (1328,1336,1); (1335,1336,1); (1338,1336,1); (1330,1337,1); (1433,1337,1); (1336,1338,1); (1347,1338,1); (1326,1339,1);
(1340,1339,1); (1342,1339,1); (1350,1339,1); (1339,1340,1); (1371,1340,1); (1324,1341,1); (1334,1341,1); (1353,1341,1); (1339,1342,1); (1347,1342,1); (1312,1343,1); (1345,1343,1);
(1345,1344,1); (1352,1344,1); (1280,1345,1); (1343,1345,1); (1344,1345,1); (1358,1345,1); (1282,1346,1); (1368,1346,1); (1338,1347,1); (1342,1347,1); (1214,1348,1); (1349,1348,1);
(1382,1348,1); (1211,1349,1); (1348,1349,1); (1354,1349,1); (1440,1349,1); (1339,1350,1); (1401,1350,1); (1331,1351,1); (1431,1351,1); (1344,1352,1); (1363,1352,1); (1341,1353,1);
(1400,1353,1); (1349,1354,1); (1355,1354,1); (1439,1354,1); (1108,1355,1); (1311,1355,1); (1354,1355,1); (1359,1356,1); (1362,1356,1); (1301,1357,1); (1359,1357,1); (1360,1357,1);
(1372,1357,1); (1345,1358,1); (1365,1358,1); (1314,1359,1); (1356,1359,1); (1357,1359,1); (1378,1359,1); (1321,1360,1); (1357,1360,1); (1362,1361,1); (1319,1362,1); (1356,1362,1);
(1361,1362,1); (1370,1362,1); (1352,1363,1); (1364,1363,1); (1363,1364,1); (1368,1364,1); (1358,1365,1); (1366,1365,1); (1365,1366,1); (1367,1366,1); (1312,1367,1); (1366,1367,1);
(1393,1367,1); (1346,1368,1); (1364,1368,1); (1403,1368,1); (1322,1369,1); (1373,1369,1); (1362,1370,1); (1376,1370,1); (1384,1370,1); (1340,1371,1); (1385,1371,1); (1357,1372,1);
(1379,1372,1); (1369,1373,1); (1374,1373,1); (1375,1373,1); (1373,1374,1); (1383,1374,1); (1373,1375,1); (1380,1375,1); (1370,1376,1); (1381,1376,1); (1395,1376,1); (1379,1377,1);
(1387,1377,1); (1359,1378,1); (1379,1378,1); (1381,1378,1); (1372,1379,1); (1377,1379,1); (1378,1379,1); (1375,1380,1); (1385,1380,1); (1376,1381,1); (1378,1381,1); (1420,1381,1);
(1348,1382,1); (1388,1382,1); (1374,1383,1); (1386,1383,1); (1370,1384,1); (1397,1384,1); (1425,1384,1); (1371,1385,1); (1380,1385,1); (1390,1385,1); (1383,1386,1); (1389,1386,1);
(1377,1387,1); (1389,1387,1); (1382,1388,1); (1393,1388,1); (1429,1388,1); (1386,1389,1); (1387,1389,1); (1391,1389,1); (1392,1389,1); (1385,1390,1); (1402,1390,1); (1389,1391,1);
(1396,1391,1); (1389,1392,1); (1394,1392,1); (1367,1393,1); (1388,1393,1); (1408,1393,1); (1392,1394,1); (1503,1394,1); (1376,1395,1); (1399,1395,1); (1391,1396,1); (1407,1396,1);
(1384,1397,1); (1398,1397,1); (1397,1398,1); (1399,1398,1); (1479,1398,1); (1395,1399,1); (1398,1399,1); (1420,1399,1); (1353,1400,1); (1405,1400,1); (1350,1401,1); (1411,1401,1);
(1390,1402,1); (1406,1402,1); (1368,1403,1); (1405,1403,1); (1292,1404,1); (1512,1404,1); (1400,1405,1); (1403,1405,1); (1416,1405,1); (1422,1405,1); (1402,1406,1); (1407,1406,1);
(1413,1406,1); (1419,1406,1); (1396,1407,1); (1406,1407,1); (1393,1408,1); (1415,1408,1); (1310,1409,1); (1414,1409,1); (1539,1409,1); (1411,1410,1); (1413,1410,1); (1401,1411,1);
(1410,1411,1); (1412,1411,1); (1411,1412,1); (1418,1412,1); (1406,1413,1); (1410,1413,1); (1223,1414,1); (1409,1414,1); (1417,1414,1); (1408,1415,1); (1424,1415,1); (1426,1415,1);
(1405,1416,1); (1434,1416,1); (1414,1417,1); (1421,1417,1); (1538,1417,1); (1412,1418,1); (1423,1418,1); (1478,1418,1); (1406,1419,1); (1491,1419,1); (1381,1420,1); (1399,1420,1);
(1476,1420,1); (1417,1421,1); (1405,1422,1); (1448,1422,1); (1418,1423,1); (1462,1423,1); (1415,1424,1); (1427,1424,1); (1384,1425,1); (1477,1425,1); (1415,1426,1); (1428,1426,1);
(1459,1426,1); (1424,1427,1); (1428,1427,1); (1429,1427,1); (1442,1427,1); (1426,1428,1); (1427,1428,1); (1388,1429,1); (1427,1429,1); (1430,1429,1); (1429,1430,1); (1437,1430,1);
(1510,1430,1); (1351,1431,1); (1432,1431,1); (1434,1431,1); (1453,1431,1); (1431,1432,1); (1337,1433,1); (1443,1433,1); (1313,1434,1); (1416,1434,1); (1431,1434,1); (1445,1434,1);
(1446,1435,1); (1272,1436,1); (1528,1436,1); (1430,1437,1); (1441,1437,1); (1309,1438,1); (1567,1438,1); (1354,1439,1); (1455,1439,1); (1349,1440,1); (1457,1440,1); (1437,1441,1);
(1482,1441,1); (1427,1442,1); (1535,1442,1); (1433,1443,1)].
Definition minnesota_A_9 : list (N * N * N) := [
(1447,1443,1); (1270,1444,1); (1504,1444,1); (1434,1445,1); (1450,1445,1); (1435,1446,1); (1447,1446,1); (1443,1447,1); (1446,1447,1); (1452,1447,1); (1460,1447,1); (1422,1448,1);
(1458,1448,1); (1450,1449,1); (1465,1449,1); (1445,1450,1); (1449,1450,1); (1451,1450,1); (1454,1450,1); (1450,1451,1); (1461,1451,1); (1447,1452,1); (1463,1452,1); (1431,1453,1);
(1464,1453,1); (1450,1454,1); (1544,1454,1); (1439,1455,1); (1456,1455,1); (1481,1455,1); (1455,1456,1); (1475,1456,1); (1440,1457,1); (1470,1457,1); (1475,1457,1); (1448,1458,1);
(1459,1458,1); (1461,1458,1); (1467,1458,1); (1426,1459,1); (1458,1459,1); (1447,1460,1); (1468,1460,1); (1451,1461,1); (1458,1461,1); (1423,1462,1); (1469,1462,1); (1452,1463,1);
(1464,1463,1); (1453,1464,1); (1463,1464,1); (1465,1464,1); (1466,1464,1); (1449,1465,1); (1464,1465,1); (1464,1466,1); (1529,1466,1); (1458,1467,1); (1548,1467,1); (1460,1468,1);
(1474,1468,1); (1462,1469,1); (1471,1469,1); (1472,1469,1); (1484,1469,1); (1457,1470,1); (1482,1470,1); (1572,1470,1); (1469,1471,1); (1490,1471,1); (1469,1472,1); (1473,1472,1);
(1472,1473,1); (1474,1473,1); (1468,1474,1); (1473,1474,1); (1480,1474,1); (1456,1475,1); (1457,1475,1); (1576,1475,1); (1420,1476,1); (1479,1476,1); (1497,1476,1); (1425,1477,1);
(1486,1477,1); (1418,1478,1); (1488,1478,1); (1398,1479,1); (1476,1479,1); (1474,1480,1); (1587,1480,1); (1455,1481,1); (1570,1481,1); (1441,1482,1); (1470,1482,1); (1492,1482,1);
(1485,1483,1); (1469,1484,1); (1581,1484,1); (1483,1485,1); (1486,1485,1); (1477,1486,1); (1485,1486,1); (1487,1486,1); (1489,1486,1); (1486,1487,1); (1515,1487,1); (1478,1488,1);
(1490,1488,1); (1493,1488,1); (1486,1489,1); (1579,1489,1); (1471,1490,1); (1488,1490,1); (1419,1491,1); (1495,1491,1); (1482,1492,1); (1523,1492,1); (1573,1492,1); (1488,1493,1);
(1508,1493,1); (1269,1494,1); (1532,1494,1); (1491,1495,1); (1498,1495,1); (1502,1495,1); (1498,1496,1); (1500,1496,1); (1476,1497,1); (1514,1497,1); (1495,1498,1); (1496,1498,1);
(1506,1498,1); (1500,1499,1); (1501,1499,1); (1509,1499,1); (1496,1500,1); (1499,1500,1); (1499,1501,1); (1522,1501,1); (1495,1502,1); (1505,1502,1); (1394,1503,1); (1517,1503,1);
(1444,1504,1); (1511,1504,1); (1532,1504,1); (1502,1505,1); (1507,1505,1); (1498,1506,1); (1524,1506,1); (1505,1507,1); (1508,1507,1); (1521,1507,1); (1493,1508,1); (1507,1508,1);
(1499,1509,1); (1525,1509,1); (1430,1510,1); (1523,1510,1); (1533,1510,1); (1561,1510,1); (1504,1511,1); (1519,1511,1); (1404,1512,1); (1519,1512,1); (1543,1512,1); (1569,1512,1);
(1514,1513,1); (1516,1513,1); (1497,1514,1); (1513,1514,1); (1515,1514,1); (1527,1514,1); (1487,1515,1); (1514,1515,1); (1513,1516,1); (1518,1516,1); (1503,1517,1); (1518,1517,1);
(1520,1517,1); (1526,1517,1); (1516,1518,1); (1517,1518,1); (1511,1519,1); (1512,1519,1); (1569,1519,1); (1517,1520,1); (1522,1520,1); (1507,1521,1); (1562,1521,1); (1501,1522,1);
(1520,1522,1); (1492,1523,1); (1510,1523,1); (1506,1524,1); (1525,1524,1); (1560,1524,1); (1564,1524,1); (1509,1525,1); (1524,1525,1); (1605,1525,1); (1517,1526,1); (1547,1526,1);
(1514,1527,1); (1558,1527,1); (1436,1528,1); (1531,1528,1); (1466,1529,1); (1544,1529,1); (1615,1529,1); (1531,1530,1); (1536,1530,1); (1528,1531,1); (1530,1531,1); (1588,1531,1);
(1494,1532,1); (1504,1532,1); (1534,1532,1); (1510,1533,1); (1535,1533,1); (1532,1534,1); (1545,1534,1); (1549,1534,1); (1442,1535,1); (1533,1535,1); (1554,1535,1); (1215,1536,1);
(1530,1536,1); (1540,1536,1); (1589,1536,1); (1538,1537,1); (1417,1538,1); (1537,1538,1); (1539,1538,1); (1719,1538,1); (1409,1539,1); (1538,1539,1); (1542,1539,1); (1536,1540,1);
(1541,1540,1); (1288,1541,1); (1540,1541,1); (1543,1541,1); (1591,1541,1); (1539,1542,1); (1546,1542,1); (1590,1542,1); (1512,1543,1); (1541,1543,1); (1454,1544,1); (1529,1544,1);
(1551,1544,1); (1607,1544,1); (1534,1545,1); (1546,1545,1); (1542,1546,1); (1545,1546,1); (1526,1547,1); (1550,1547,1); (1467,1548,1); (1553,1548,1); (1534,1549,1); (1578,1549,1);
(1547,1550,1); (1552,1550,1); (1556,1550,1); (1544,1551,1); (1553,1551,1); (1550,1552,1); (1559,1552,1); (1548,1553,1); (1551,1553,1); (1555,1553,1); (1557,1553,1); (1535,1554,1);
(1561,1554,1); (1553,1555,1); (1594,1555,1); (1550,1556,1); (1565,1556,1); (1553,1557,1); (1586,1557,1); (1527,1558,1); (1559,1558,1); (1597,1558,1); (1552,1559,1); (1558,1559,1);
(1524,1560,1); (1639,1560,1); (1510,1561,1); (1554,1561,1); (1563,1561,1); (1521,1562,1); (1566,1562,1); (1561,1563,1); (1580,1563,1); (1524,1564,1); (1566,1564,1); (1556,1565,1);
(1604,1565,1); (1562,1566,1); (1564,1566,1); (1568,1566,1); (1438,1567,1); (1583,1567,1); (1566,1568,1); (1577,1568,1); (1512,1569,1); (1519,1569,1); (1602,1569,1); (1603,1569,1);
(1481,1570,1); (1571,1570,1); (1585,1570,1); (1627,1570,1); (1570,1571,1); (1576,1571,1); (1470,1572,1); (1573,1572,1); (1576,1572,1); (1626,1572,1); (1492,1573,1); (1572,1573,1);
(1574,1573,1); (1677,1573,1); (1573,1574,1); (1575,1574,1); (1574,1575,1); (1580,1575,1); (1475,1576,1); (1571,1576,1); (1572,1576,1); (1629,1576,1); (1568,1577,1); (1625,1577,1);
(1549,1578,1); (1716,1578,1); (1489,1579,1); (1597,1579,1); (1699,1579,1); (1563,1580,1); (1575,1580,1); (1582,1580,1); (1598,1580,1); (1484,1581,1); (1584,1581,1); (1596,1581,1);
(1580,1582,1); (1606,1582,1); (1567,1583,1); (1585,1583,1); (1588,1583,1); (1614,1583,1); (1581,1584,1); (1608,1584,1); (1656,1584,1); (1570,1585,1); (1583,1585,1); (1557,1586,1);
(1595,1586,1); (1480,1587,1); (1609,1587,1); (1531,1588,1); (1583,1588,1); (1536,1589,1); (1820,1589,1); (1542,1590,1); (1735,1590,1); (1541,1591,1); (1755,1591,1); (1593,1592,1);
(1598,1592,1); (1592,1593,1); (1594,1593,1); (1555,1594,1); (1593,1594,1); (1586,1595,1); (1600,1595,1); (1621,1595,1); (1581,1596,1); (1620,1596,1); (1654,1596,1); (1558,1597,1);
(1579,1597,1); (1599,1597,1); (1698,1597,1); (1580,1598,1); (1592,1598,1); (1597,1599,1); (1601,1599,1); (1595,1600,1); (1622,1600,1); (1599,1601,1); (1619,1601,1); (1645,1601,1);
(1569,1602,1); (1730,1602,1); (1569,1603,1); (1616,1603,1)].
Definition minnesota_A_10 : list (N * N * N) := [
(1565,1604,1); (1617,1604,1); (1525,1605,1); (1623,1605,1); (1582,1606,1); (1695,1606,1); (1544,1607,1); (1615,1607,1); (1622,1607,1); (1675,1607,1); (1584,1608,1); (1609,1608,1);
(1587,1609,1); (1608,1609,1); (1613,1609,1); (1611,1610,1); (1615,1610,1); (1610,1611,1); (1612,1611,1); (1624,1611,1); (1611,1612,1); (1613,1612,1); (1609,1613,1); (1612,1613,1);
(1583,1614,1); (1647,1614,1); (1648,1614,1); (1529,1615,1); (1607,1615,1); (1610,1615,1); (1673,1615,1); (1603,1616,1); (1722,1616,1); (1604,1617,1); (1618,1617,1); (1623,1617,1);
(1617,1618,1); (1619,1618,1); (1601,1619,1); (1618,1619,1); (1649,1619,1); (1596,1620,1); (1633,1620,1); (1595,1621,1); (1651,1621,1); (1600,1622,1); (1607,1622,1); (1665,1622,1);
(1605,1623,1); (1617,1623,1); (1628,1623,1); (1635,1623,1); (1611,1624,1); (1657,1624,1); (1577,1625,1); (1630,1625,1); (1572,1626,1); (1629,1626,1); (1640,1626,1); (1570,1627,1);
(1634,1627,1); (1781,1627,1); (1623,1628,1); (1632,1628,1); (1576,1629,1); (1626,1629,1); (1641,1629,1); (1625,1630,1); (1631,1630,1); (1636,1630,1); (1630,1631,1); (1633,1631,1);
(1628,1632,1); (1644,1632,1); (1620,1633,1); (1631,1633,1); (1678,1633,1); (1627,1634,1); (1637,1634,1); (1623,1635,1); (1759,1635,1); (1630,1636,1); (1653,1636,1); (1634,1637,1);
(1638,1637,1); (1637,1638,1); (1641,1638,1); (1560,1639,1); (1643,1639,1); (1626,1640,1); (1677,1640,1); (1724,1640,1); (1629,1641,1); (1638,1641,1); (1771,1641,1); (1643,1642,1);
(1660,1642,1); (1639,1643,1); (1642,1643,1); (1644,1643,1); (1646,1643,1); (1632,1644,1); (1643,1644,1); (1601,1645,1); (1691,1645,1); (1643,1646,1); (1706,1646,1); (1614,1647,1);
(1837,1647,1); (1614,1648,1); (1650,1648,1); (1619,1649,1); (1692,1649,1); (1648,1650,1); (1652,1650,1); (1621,1651,1); (1655,1651,1); (1650,1652,1); (1784,1652,1); (1636,1653,1);
(1659,1653,1); (1596,1654,1); (1661,1654,1); (1651,1655,1); (1658,1655,1); (1662,1655,1); (1584,1656,1); (1666,1656,1); (1624,1657,1); (1674,1657,1); (1655,1658,1); (1664,1658,1);
(1653,1659,1); (1660,1659,1); (1671,1659,1); (1685,1659,1); (1642,1660,1); (1659,1660,1); (1654,1661,1); (1663,1661,1); (1669,1661,1); (1655,1662,1); (1683,1662,1); (1661,1663,1);
(1670,1663,1); (1658,1664,1); (1687,1664,1); (1622,1665,1); (1701,1665,1); (1656,1666,1); (1667,1666,1); (1668,1666,1); (1679,1666,1); (1666,1667,1); (1669,1667,1); (1666,1668,1);
(1676,1668,1); (1661,1669,1); (1667,1669,1); (1663,1670,1); (1671,1670,1); (1659,1671,1); (1670,1671,1); (1674,1672,1); (1690,1672,1); (1615,1673,1); (1688,1673,1); (1657,1674,1);
(1672,1674,1); (1676,1674,1); (1684,1674,1); (1607,1675,1); (1682,1675,1); (1668,1676,1); (1674,1676,1); (1573,1677,1); (1640,1677,1); (1695,1677,1); (1633,1678,1); (1689,1678,1);
(1666,1679,1); (1707,1679,1); (1687,1680,1); (1704,1680,1); (1682,1681,1); (1686,1681,1); (1675,1682,1); (1681,1682,1); (1683,1682,1); (1693,1682,1); (1662,1683,1); (1682,1683,1);
(1674,1684,1); (1725,1684,1); (1659,1685,1); (1732,1685,1); (1681,1686,1); (1688,1686,1); (1664,1687,1); (1680,1687,1); (1694,1687,1); (1673,1688,1); (1686,1688,1); (1690,1688,1);
(1678,1689,1); (1703,1689,1); (1672,1690,1); (1688,1690,1); (1645,1691,1); (1696,1691,1); (1649,1692,1); (1696,1692,1); (1682,1693,1); (1714,1693,1); (1687,1694,1); (1700,1694,1);
(1702,1694,1); (1606,1695,1); (1677,1695,1); (1705,1695,1); (1691,1696,1); (1692,1696,1); (1697,1696,1); (1696,1697,1); (1698,1697,1); (1597,1698,1); (1697,1698,1); (1699,1698,1);
(1757,1698,1); (1579,1699,1); (1698,1699,1); (1801,1699,1); (1694,1700,1); (1710,1700,1); (1665,1701,1); (1711,1701,1); (1694,1702,1); (1715,1702,1); (1689,1703,1); (1709,1703,1);
(1775,1703,1); (1680,1704,1); (1705,1704,1); (1710,1704,1); (1695,1705,1); (1704,1705,1); (1724,1705,1); (1787,1705,1); (1646,1706,1); (1708,1706,2); (1679,1707,1); (1740,1707,1);
(1706,1708,2); (1709,1708,1); (1703,1709,1); (1708,1709,1); (1774,1709,1); (1700,1710,1); (1704,1710,1); (1713,1710,1); (1701,1711,1); (1712,1711,1); (1711,1712,1); (1721,1712,1);
(1743,1712,1); (1710,1713,1); (1715,1713,1); (1765,1713,1); (1693,1714,1); (1726,1714,1); (1728,1714,1); (1702,1715,1); (1713,1715,1); (1720,1715,1); (1578,1716,1); (1717,1716,1);
(1742,1716,1); (1716,1717,1); (1718,1717,1); (1723,1717,1); (1717,1718,1); (1729,1718,1); (1538,1719,1); (1736,1719,1); (1715,1720,1); (1743,1720,1); (1712,1721,1); (1727,1721,1);
(1616,1722,1); (1729,1722,1); (1717,1723,1); (1869,1723,1); (1997,1723,1); (1640,1724,1); (1705,1724,1); (1771,1724,1); (1684,1725,1); (1756,1725,1); (1714,1726,1); (1731,1726,1);
(1721,1727,1); (1737,1727,1); (1761,1727,1); (1714,1728,1); (1731,1728,1); (1718,1729,1); (1722,1729,1); (1730,1729,1); (1602,1730,1); (1729,1730,1); (1755,1730,1); (1726,1731,1);
(1728,1731,1); (1733,1731,1); (1685,1732,1); (1741,1732,1); (1731,1733,1); (1737,1733,1); (1744,1733,1); (1736,1734,1); (1590,1735,1); (1736,1735,1); (1742,1735,1); (1909,1735,1);
(1719,1736,1); (1734,1736,1); (1735,1736,1); (1850,1736,1); (1727,1737,1); (1733,1737,1); (1744,1737,1); (1740,1738,1); (1766,1738,1); (1740,1739,1); (1741,1739,1); (1707,1740,1);
(1738,1740,1); (1739,1740,1); (1748,1740,1); (1732,1741,1); (1739,1741,1); (1746,1741,1); (1716,1742,1); (1735,1742,1); (1868,1742,1); (1712,1743,1); (1720,1743,1); (1763,1743,1);
(1733,1744,1); (1737,1744,1); (1745,1744,1); (1753,1744,1); (1744,1745,1); (1747,1745,1); (1749,1745,1); (1741,1746,1); (1751,1746,1); (1745,1747,1); (1750,1747,1); (1752,1747,1);
(1740,1748,1); (1754,1748,1); (1745,1749,1); (1789,1749,1); (1747,1750,1); (1783,1750,1); (1746,1751,1); (1754,1751,1); (1747,1752,1); (1760,1752,1); (1768,1752,1); (1744,1753,1);
(1758,1753,1); (1796,1753,1); (1748,1754,1); (1751,1754,1); (1767,1754,1); (1773,1754,1); (1591,1755,1); (1730,1755,1); (1764,1755,1); (1725,1756,1); (1770,1756,1); (1698,1757,1);
(1759,1757,1); (1753,1758,1); (1772,1758,1); (1635,1759,1); (1757,1759,1); (1776,1759,1); (1752,1760,1); (1762,1760,1); (1794,1760,1); (1727,1761,1); (1762,1761,1); (1785,1761,1);
(1760,1762,1); (1761,1762,1); (1769,1762,1); (1743,1763,1)].
Definition minnesota_A_11 : list (N * N * N) := [
(1765,1763,1); (1755,1764,1); (1820,1764,1); (1964,1764,1); (1713,1765,1); (1763,1765,1); (1787,1765,1); (1842,1765,1); (1738,1766,1); (1770,1766,1); (1754,1767,1); (1804,1767,1);
(1752,1768,1); (1783,1768,1); (1762,1769,1); (1792,1769,1); (1756,1770,1); (1766,1770,1); (1772,1770,1); (1779,1770,1); (1641,1771,1); (1724,1771,1); (1777,1771,1); (1778,1771,1);
(1758,1772,1); (1770,1772,1); (1754,1773,1); (1791,1773,1); (1709,1774,1); (1786,1774,1); (1703,1775,1); (1821,1775,1); (1759,1776,1); (1788,1776,1); (1771,1777,1); (1778,1777,1);
(1787,1777,1); (1831,1777,1); (1771,1778,1); (1777,1778,1); (1780,1778,1); (1770,1779,1); (1802,1779,1); (1778,1780,1); (1782,1780,1); (1833,1780,1); (1627,1781,1); (1782,1781,1);
(1784,1781,1); (1780,1782,1); (1781,1782,1); (1750,1783,1); (1768,1783,1); (1789,1783,1); (1798,1783,1); (1652,1784,1); (1781,1784,1); (1819,1784,1); (1761,1785,1); (1792,1785,1);
(1826,1785,1); (1774,1786,1); (1816,1786,1); (1822,1786,1); (1705,1787,1); (1765,1787,1); (1777,1787,1); (1845,1787,1); (1776,1788,1); (1797,1788,1); (1801,1788,1); (1749,1789,1);
(1783,1789,1); (1790,1789,1); (1789,1790,1); (1795,1790,1); (1799,1790,1); (1773,1791,1); (1830,1791,1); (1769,1792,1); (1785,1792,1); (1793,1792,1); (1825,1792,1); (1792,1793,1);
(1794,1793,1); (1760,1794,1); (1793,1794,1); (1800,1794,1); (1790,1795,1); (1796,1795,1); (1753,1796,1); (1795,1796,1); (1812,1796,1); (1788,1797,1); (1810,1797,1); (1783,1798,1);
(1805,1798,1); (1790,1799,1); (1808,1799,1); (1794,1800,1); (1807,1800,1); (1699,1801,1); (1788,1801,1); (1803,1801,1); (1779,1802,1); (1814,1802,1); (1801,1803,1); (1767,1804,1);
(1815,1804,1); (1798,1805,1); (1808,1805,1); (1811,1805,1); (1812,1806,1); (1813,1806,1); (1836,1806,1); (1800,1807,1); (1811,1807,1); (1828,1807,1); (1799,1808,1); (1805,1808,1);
(1812,1808,1); (1813,1809,1); (1814,1809,1); (1797,1810,1); (1824,1810,1); (1805,1811,1); (1807,1811,1); (1796,1812,1); (1806,1812,1); (1808,1812,1); (1849,1812,1); (1806,1813,1);
(1809,1813,1); (1802,1814,1); (1809,1814,1); (1815,1814,1); (1818,1814,1); (1804,1815,1); (1814,1815,1); (1817,1815,1); (1818,1815,1); (1786,1816,1); (1822,1816,1); (1823,1816,1);
(1815,1817,1); (1830,1817,1); (1814,1818,1); (1815,1818,1); (1832,1818,1); (1784,1819,1); (1837,1819,1); (1841,1819,1); (1589,1820,1); (1764,1820,1); (1838,1820,1); (2003,1820,1);
(1775,1821,1); (1822,1821,1); (1829,1821,1); (1786,1822,1); (1816,1822,1); (1821,1822,1); (1844,1822,1); (1816,1823,1); (1824,1823,1); (1810,1824,1); (1823,1824,1); (1835,1824,1);
(1792,1825,1); (1826,1825,1); (1827,1825,1); (1872,1825,1); (1785,1826,1); (1825,1826,1); (1878,1826,1); (1825,1827,1); (1828,1827,1); (1807,1828,1); (1827,1828,1); (1834,1828,1);
(1821,1829,1); (1830,1829,1); (1791,1830,1); (1817,1830,1); (1829,1830,1); (1889,1830,1); (1777,1831,1); (1833,1831,1); (1845,1831,1); (1818,1832,1); (1859,1832,1); (1780,1833,1);
(1831,1833,1); (1843,1833,1); (1828,1834,1); (1866,1834,1); (1824,1835,1); (1839,1835,1); (1847,1835,1); (1806,1836,1); (1848,1836,1); (1858,1836,1); (1647,1837,1); (1819,1837,1);
(1838,1837,1); (1917,1837,1); (1820,1838,1); (1837,1838,1); (1835,1839,1); (1851,1839,1); (1853,1839,1); (1852,1840,1); (1819,1841,1); (1962,1841,1); (1765,1842,1); (1845,1842,1);
(1865,1842,1); (1833,1843,1); (1961,1843,1); (1822,1844,1); (1846,1844,1); (1884,1844,1); (1787,1845,1); (1831,1845,1); (1842,1845,1); (1880,1845,1); (1844,1846,1); (1847,1846,1);
(1879,1846,1); (1835,1847,1); (1846,1847,1); (1836,1848,1); (1856,1848,1); (1812,1849,1); (1854,1849,1); (1857,1849,1); (1736,1850,1); (1852,1850,1); (1906,1850,1); (1839,1851,1);
(1933,1851,1); (1840,1852,1); (1850,1852,1); (1907,1852,1); (1839,1853,1); (1885,1853,1); (1849,1854,1); (1855,1854,1); (1866,1854,1); (1854,1855,1); (1916,1855,1); (1848,1856,1);
(1860,1856,1); (1849,1857,1); (1864,1857,1); (1836,1858,1); (1864,1858,1); (1832,1859,1); (1861,1859,1); (1856,1860,1); (1861,1860,1); (1859,1861,1); (1860,1861,1); (1862,1861,1);
(1863,1861,1); (1861,1862,1); (1888,1862,1); (1861,1863,1); (1871,1863,1); (1857,1864,1); (1858,1864,1); (1874,1864,1); (1904,1864,1); (1842,1865,1); (1882,1865,1); (1834,1866,1);
(1854,1866,1); (1867,1866,1); (1870,1866,1); (1866,1867,1); (1872,1867,1); (1742,1868,1); (1869,1868,1); (1723,1869,1); (1868,1869,1); (1919,1869,1); (1866,1870,1); (1918,1870,1);
(1863,1871,1); (1876,1871,1); (1825,1872,1); (1867,1872,1); (1873,1872,1); (1872,1873,1); (1883,1873,1); (1911,1873,1); (1864,1874,1); (1875,1874,1); (1874,1875,1); (1876,1875,1);
(1871,1876,1); (1875,1876,1); (1877,1876,1); (1876,1877,1); (1891,1877,1); (1826,1878,1); (1882,1878,1); (1883,1878,1); (1846,1879,1); (1884,1879,1); (1926,1879,1); (1845,1880,1);
(1892,1880,1); (1885,1881,1); (1937,1881,1); (1865,1882,1); (1878,1882,1); (1883,1882,1); (1886,1882,1); (1873,1883,1); (1878,1883,1); (1882,1883,1); (1908,1883,1); (1844,1884,1);
(1879,1884,1); (1887,1884,1); (1926,1884,1); (1853,1885,1); (1881,1885,1); (1890,1885,1); (1882,1886,1); (1903,1886,1); (1915,1886,1); (1884,1887,1); (1900,1887,1); (1862,1888,1);
(1889,1888,1); (1912,1888,1); (1830,1889,1); (1888,1889,1); (1898,1889,1); (1885,1890,1); (1922,1890,1); (1877,1891,1); (1895,1891,1); (1880,1892,1); (1897,1892,1); (1894,1893,1);
(1904,1893,1); (1893,1894,1); (1895,1894,1); (1891,1895,1); (1894,1895,1); (1896,1895,1); (1899,1895,1); (1895,1896,1); (1920,1896,1); (1892,1897,1); (1901,1897,1); (1889,1898,1);
(1900,1898,1); (1910,1898,1); (1895,1899,1); (1921,1899,1); (1887,1900,1); (1898,1900,1); (1914,1900,1); (1897,1901,1); (1902,1901,1); (1901,1902,1); (1905,1902,1); (1886,1903,1);
(1915,1903,1); (1925,1903,1); (1864,1904,1); (1893,1904,1); (1916,1904,1); (1944,1904,1); (1902,1905,1); (1924,1905,1); (1850,1906,1); (1930,1906,1); (1852,1907,1); (2032,1907,1);
(1883,1908,1); (1911,1908,1); (1950,1908,1); (1735,1909,1); (2016,1909,1); (1898,1910,1); (1967,1910,1); (1873,1911,1); (1908,1911,1); (1918,1911,1); (1949,1911,1); (1888,1912,1);
(1946,1912,1); (1914,1913,1); (1929,1913,1); (1900,1914,1)].
Definition minnesota_A_12 : list (N * N * N) := [
(1913,1914,1); (1923,1914,1); (1886,1915,1); (1903,1915,1); (1939,1915,1); (1855,1916,1); (1904,1916,1); (1918,1916,1); (1945,1916,1); (1837,1917,1); (1988,1917,1); (1870,1918,1);
(1911,1918,1); (1916,1918,1); (1947,1918,1); (1869,1919,1); (2031,1919,1); (1896,1920,1); (1953,1920,1); (1899,1921,1); (1941,1921,1); (1890,1922,1); (1935,1922,1); (1914,1923,1);
(1982,1923,1); (1905,1924,1); (1925,1924,1); (1928,1924,1); (1903,1925,1); (1924,1925,1); (1927,1925,1); (1879,1926,1); (1884,1926,1); (1929,1926,1); (1932,1926,1); (1925,1927,1);
(1928,1927,1); (1939,1927,1); (1924,1928,1); (1927,1928,1); (1975,1928,1); (1989,1928,1); (1913,1929,1); (1926,1929,1); (1931,1929,1); (1986,1929,1); (1906,1930,1); (2033,1930,1);
(1929,1931,1); (1932,1931,1); (1987,1931,1); (1926,1932,1); (1931,1932,1); (1933,1932,1); (1993,1932,1); (1851,1933,1); (1932,1933,1); (1934,1933,1); (1985,1933,1); (1933,1934,1);
(1935,1934,1); (1922,1935,1); (1934,1935,1); (1937,1935,1); (1937,1936,1); (1938,1936,1); (1881,1937,1); (1935,1937,1); (1936,1937,1); (1936,1938,1); (1955,1938,1); (1915,1939,1);
(1927,1939,1); (1940,1939,1); (1939,1940,1); (1950,1940,1); (1968,1940,1); (1921,1941,1); (1943,1941,1); (1943,1942,1); (1944,1942,1); (1941,1943,1); (1942,1943,1); (1951,1943,1);
(1954,1943,1); (1904,1944,1); (1942,1944,1); (1945,1944,1); (1916,1945,1); (1944,1945,1); (1947,1945,1); (1969,1945,1); (1912,1946,1); (1953,1946,1); (1918,1947,1); (1945,1947,1);
(1949,1947,1); (1983,1947,1); (2034,1948,1); (1911,1949,1); (1947,1949,1); (1950,1949,1); (1908,1950,1); (1940,1950,1); (1949,1950,1); (1980,1950,1); (1943,1951,1); (1953,1951,1);
(1956,1952,1); (1920,1953,1); (1946,1953,1); (1951,1953,1); (1971,1953,1); (1943,1954,1); (1970,1954,1); (1938,1955,1); (1957,1955,1); (1990,1955,1); (1952,1956,1); (1957,1956,1);
(1958,1956,1); (1960,1956,1); (1955,1957,1); (1956,1957,1); (1958,1957,1); (1956,1958,1); (1957,1958,1); (1959,1958,1); (1958,1959,1); (2005,1959,1); (1956,1960,1); (2046,1960,1);
(1843,1961,1); (1963,1961,1); (2004,1961,1); (1841,1962,1); (1963,1962,1); (1992,1962,1); (1961,1963,1); (1962,1963,1); (2039,1963,1); (1764,1964,1); (1965,1964,1); (2003,1964,1);
(1964,1965,1); (1999,1965,1); (1967,1966,1); (1982,1966,1); (2025,1966,1); (1910,1967,1); (1966,1967,1); (1972,1967,1); (1940,1968,1); (1976,1968,1); (1977,1968,1); (1945,1969,1);
(1973,1969,1); (1974,1969,1); (1954,1970,1); (2015,1970,1); (1953,1971,1); (1972,1971,1); (1974,1971,1); (1967,1972,1); (1971,1972,1); (1969,1973,1); (1983,1973,1); (2021,1973,1);
(1969,1974,1); (1971,1974,1); (1928,1975,1); (1979,1975,1); (1989,1975,1); (1968,1976,1); (1979,1976,1); (1968,1977,1); (1978,1977,1); (1977,1978,1); (1980,1978,1); (1975,1979,1);
(1976,1979,1); (1950,1980,1); (1978,1980,1); (1981,1980,1); (2068,1980,1); (1980,1981,1); (1984,1981,1); (1923,1982,1); (1966,1982,1); (1986,1982,1); (2012,1982,1); (1947,1983,1);
(1973,1983,1); (1984,1983,1); (1981,1984,1); (1983,1984,1); (1933,1985,1); (2008,1985,1); (1929,1986,1); (1982,1986,1); (1987,1986,1); (2012,1986,1); (1931,1987,1); (1986,1987,1);
(1993,1987,1); (2007,1987,1); (1917,1988,1); (1992,1988,1); (2002,1988,1); (1928,1989,1); (1975,1989,1); (1991,1989,1); (2013,1989,1); (1955,1990,1); (2008,1990,1); (1989,1991,1);
(2001,1991,1); (1962,1992,1); (1988,1992,1); (2038,1992,1); (1932,1993,1); (1987,1993,1); (2006,1993,1); (1995,1994,1); (1998,1994,1); (1994,1995,1); (1996,1995,1); (1995,1996,1);
(1999,1996,1); (1723,1997,1); (1998,1997,1); (1994,1998,1); (1997,1998,1); (2036,1998,1); (1965,1999,1); (1996,1999,1); (2000,1999,1); (1999,2000,1); (2063,2000,1); (2064,2000,1);
(1991,2001,1); (2004,2001,1); (1988,2002,1); (2003,2002,1); (1820,2003,1); (1964,2003,1); (2002,2003,1); (2043,2003,1); (1961,2004,1); (2001,2004,1); (2014,2004,1); (1959,2005,1);
(2109,2005,1); (1993,2006,1); (2009,2006,1); (1987,2007,1); (2011,2007,1); (1985,2008,1); (1990,2008,1); (2009,2008,1); (2010,2008,1); (2006,2009,1); (2008,2009,1); (2010,2009,1);
(2011,2009,1); (2008,2010,1); (2009,2010,1); (2071,2010,1); (2007,2011,1); (2009,2011,1); (2024,2011,1); (1982,2012,1); (1986,2012,1); (2027,2012,1); (1989,2013,1); (2014,2013,1);
(2004,2014,1); (2013,2014,1); (2041,2014,1); (1970,2015,1); (2019,2015,1); (1909,2016,1); (2047,2016,1); (2018,2017,1); (2019,2017,1); (2017,2018,1); (2022,2018,1); (2015,2019,1);
(2017,2019,1); (2021,2019,1); (2029,2019,1); (2024,2020,1); (2028,2020,1); (1973,2021,1); (2019,2021,1); (2018,2022,1); (2023,2022,1); (2022,2023,1); (2026,2023,1); (2011,2024,1);
(2020,2024,1); (2111,2024,1); (1966,2025,1); (2045,2025,1); (2023,2026,1); (2042,2026,1); (2012,2027,1); (2035,2027,1); (2020,2028,1); (2030,2028,1); (2019,2029,1); (2076,2029,1);
(2028,2030,1); (2035,2030,1); (1919,2031,1); (2049,2031,1); (1907,2032,1); (2034,2032,1); (2052,2032,1); (2124,2032,1); (1930,2033,1); (2047,2033,1); (1948,2034,1); (2032,2034,1);
(2055,2034,1); (2027,2035,1); (2030,2035,1); (2044,2035,1); (1998,2036,1); (2037,2036,1); (2065,2036,1); (2036,2037,1); (2048,2037,1); (1992,2038,1); (2040,2038,1); (1963,2039,1);
(2062,2039,1); (2038,2040,1); (2079,2040,1); (2014,2041,1); (2073,2041,1); (2026,2042,1); (2045,2042,1); (2003,2043,1); (2057,2043,1); (2035,2044,1); (2045,2044,1); (2058,2044,1);
(2025,2045,1); (2042,2045,1); (2044,2045,1); (1960,2046,1); (2050,2046,1); (2016,2047,1); (2033,2047,1); (2051,2047,1); (2037,2048,1); (2049,2048,1); (2031,2049,1); (2048,2049,1);
(2051,2049,1); (2056,2049,1); (2046,2050,1); (2070,2050,1); (2108,2050,1); (2047,2051,1); (2049,2051,1); (2054,2051,1); (2056,2051,1); (2032,2052,1); (2053,2052,1); (2052,2053,1);
(2054,2053,1); (2051,2054,1); (2053,2054,1); (2060,2054,1); (2034,2055,1); (2049,2056,1); (2051,2056,1); (2059,2056,1); (2061,2056,1); (2043,2057,1); (2074,2057,1); (2044,2058,1);
(2084,2058,1); (2056,2059,1); (2060,2059,1); (2054,2060,1); (2059,2060,1); (2091,2060,1); (2056,2061,1); (2130,2061,1); (2039,2062,1); (2072,2062,1); (2113,2062,1); (2000,2063,1);
(2064,2063,1); (2065,2063,1); (2000,2064,1); (2063,2064,1)].
Definition minnesota_A_13 : list (N * N * N) := [
(2069,2064,1); (2036,2065,1); (2063,2065,1); (2133,2065,1); (2070,2066,1); (2068,2067,1); (2075,2067,1); (1980,2068,1); (2067,2068,1); (2081,2068,1); (2136,2068,1); (2064,2069,1);
(2074,2069,1); (2050,2070,1); (2066,2070,1); (2096,2070,1); (2108,2070,1); (2010,2071,1); (2098,2071,1); (2103,2071,1); (2062,2072,1); (2078,2072,1); (2041,2073,1); (2078,2073,1);
(2057,2074,1); (2069,2074,1); (2099,2074,1); (2067,2075,1); (2085,2075,1); (2029,2076,1); (2082,2076,1); (2087,2077,1); (2099,2077,1); (2072,2078,1); (2073,2078,1); (2081,2078,1);
(2090,2078,1); (2040,2079,1); (2080,2079,1); (2083,2079,1); (2079,2080,1); (2087,2080,1); (2068,2081,1); (2078,2081,1); (2076,2082,1); (2086,2082,1); (2079,2083,1); (2114,2083,1);
(2058,2084,1); (2094,2084,1); (2075,2085,1); (2086,2085,1); (2082,2086,1); (2085,2086,1); (2088,2086,1); (2089,2086,1); (2077,2087,1); (2080,2087,1); (2115,2087,1); (2086,2088,1);
(2094,2088,1); (2086,2089,1); (2100,2089,1); (2078,2090,1); (2092,2090,1); (2095,2090,1); (2060,2091,1); (2128,2091,1); (2129,2091,1); (2090,2092,1); (2093,2092,1); (2097,2092,1);
(2092,2093,1); (2113,2093,1); (2084,2094,1); (2088,2094,1); (2101,2094,1); (2090,2095,1); (2132,2095,1); (2070,2096,1); (2160,2096,1); (2184,2096,1); (2092,2097,1); (2141,2097,1);
(2071,2098,1); (2103,2098,1); (2112,2098,1); (2149,2098,1); (2074,2099,1); (2077,2099,1); (2134,2099,1); (2198,2099,1); (2089,2100,1); (2104,2100,1); (2094,2101,1); (2102,2101,1);
(2105,2101,1); (2101,2102,1); (2104,2102,1); (2071,2103,1); (2098,2103,1); (2109,2103,1); (2100,2104,1); (2102,2104,1); (2106,2104,1); (2107,2104,1); (2101,2105,1); (2116,2105,1);
(2104,2106,1); (2135,2106,1); (2104,2107,1); (2119,2107,1); (2050,2108,1); (2070,2108,1); (2120,2108,1); (2159,2108,1); (2005,2109,1); (2103,2109,1); (2110,2109,1); (2109,2110,1);
(2122,2110,1); (2024,2111,1); (2112,2111,1); (2098,2112,1); (2111,2112,1); (2117,2112,1); (2062,2113,1); (2093,2113,1); (2114,2113,1); (2118,2113,1); (2083,2114,1); (2113,2114,1);
(2118,2114,1); (2087,2115,1); (2123,2115,1); (2105,2116,1); (2117,2116,1); (2112,2117,1); (2116,2117,1); (2145,2117,1); (2113,2118,1); (2114,2118,1); (2140,2118,1); (2167,2118,1);
(2107,2119,1); (2152,2119,1); (2108,2120,1); (2122,2120,1); (2124,2121,1); (2110,2122,1); (2120,2122,1); (2158,2122,1); (2115,2123,1); (2126,2123,1); (2200,2123,1); (2032,2124,1);
(2121,2124,1); (2125,2124,1); (2124,2125,1); (2127,2125,1); (2142,2125,1); (2123,2126,1); (2161,2126,1); (2125,2127,1); (2129,2127,1); (2091,2128,1); (2129,2128,1); (2130,2128,1);
(2148,2128,1); (2091,2129,1); (2127,2129,1); (2128,2129,1); (2137,2129,1); (2061,2130,1); (2128,2130,1); (2131,2130,1); (2151,2130,1); (2130,2131,1); (2133,2131,1); (2095,2132,1);
(2139,2132,1); (2065,2133,1); (2131,2133,1); (2134,2133,1); (2157,2133,1); (2099,2134,1); (2133,2134,1); (2106,2135,1); (2136,2135,1); (2068,2136,1); (2135,2136,1); (2150,2136,1);
(2156,2136,1); (2129,2137,1); (2147,2137,1); (2144,2138,1); (2186,2138,1); (2132,2139,1); (2165,2139,1); (2118,2140,1); (2161,2140,1); (2097,2141,1); (2143,2141,1); (2125,2142,1);
(2275,2142,1); (2141,2143,1); (2146,2143,1); (2138,2144,1); (2153,2144,1); (2154,2144,1); (2117,2145,1); (2246,2145,1); (2143,2146,1); (2162,2146,1); (2137,2147,1); (2276,2147,1);
(2128,2148,1); (2279,2148,1); (2098,2149,1); (2267,2149,1); (2136,2150,1); (2155,2150,1); (2130,2151,1); (2226,2151,1); (2119,2152,1); (2202,2152,1); (2144,2153,1); (2156,2153,1);
(2144,2154,1); (2197,2154,1); (2150,2155,1); (2203,2155,1); (2136,2156,1); (2153,2156,1); (2133,2157,1); (2250,2157,1); (2122,2158,1); (2172,2158,1); (2108,2159,1); (2181,2159,1);
(2096,2160,1); (2229,2160,1); (2126,2161,1); (2140,2161,1); (2187,2161,1); (2146,2162,1); (2163,2162,1); (2166,2162,1); (2168,2162,1); (2162,2163,1); (2164,2163,1); (2163,2164,1);
(2165,2164,1); (2139,2165,1); (2164,2165,1); (2169,2165,1); (2170,2165,1); (2162,2166,1); (2171,2166,1); (2118,2167,1); (2168,2167,1); (2162,2168,1); (2167,2168,1); (2179,2168,1);
(2165,2169,1); (2176,2169,1); (2178,2169,1); (2165,2170,1); (2174,2170,1); (2175,2170,1); (2166,2171,1); (2173,2171,1); (2179,2171,1); (2158,2172,1); (2181,2172,1); (2209,2172,1);
(2171,2173,1); (2174,2173,1); (2170,2174,1); (2173,2174,1); (2180,2174,1); (2185,2174,1); (2170,2175,1); (2176,2175,1); (2189,2175,1); (2169,2176,1); (2175,2176,1); (2177,2176,1);
(2190,2176,1); (2176,2177,1); (2178,2177,1); (2169,2178,1); (2177,2178,1); (2186,2178,1); (2168,2179,1); (2171,2179,1); (2183,2179,1); (2174,2180,1); (2159,2181,1); (2172,2181,1);
(2182,2181,1); (2227,2181,1); (2181,2182,1); (2184,2182,1); (2179,2183,1); (2185,2183,1); (2096,2184,1); (2182,2184,1); (2201,2184,1); (2174,2185,1); (2183,2185,1); (2187,2185,1);
(2138,2186,1); (2178,2186,1); (2193,2186,1); (2161,2187,1); (2185,2187,1); (2188,2187,1); (2187,2188,1); (2191,2188,1); (2175,2189,1); (2190,2189,1); (2194,2189,1); (2176,2190,1);
(2189,2190,1); (2194,2190,1); (2278,2190,1); (2188,2191,1); (2192,2191,1); (2196,2191,1); (2191,2192,1); (2225,2192,1); (2339,2192,1); (2186,2193,1); (2197,2193,1); (2189,2194,1);
(2190,2194,1); (2195,2194,1); (2194,2195,1); (2196,2195,1); (2320,2195,1); (2191,2196,1); (2195,2196,1); (2154,2197,1); (2193,2197,1); (2217,2197,1); (2319,2197,1); (2099,2198,1);
(2199,2198,1); (2198,2199,1); (2249,2199,1); (2123,2200,1); (2231,2200,1); (2184,2201,1); (2277,2201,1); (2152,2202,1); (2204,2202,1); (2155,2203,1); (2222,2203,1); (2202,2204,1);
(2205,2204,1); (2204,2205,1); (2206,2205,1); (2207,2205,1); (2210,2205,1); (2205,2206,1); (2208,2206,1); (2205,2207,1); (2215,2207,1); (2206,2208,1); (2212,2208,1); (2172,2209,1);
(2221,2209,1); (2205,2210,1); (2211,2210,1); (2210,2211,1); (2213,2211,1); (2208,2212,1); (2219,2212,1); (2211,2213,1); (2214,2213,1); (2218,2213,1); (2213,2214,1); (2215,2214,1);
(2207,2215,1); (2214,2215,1); (2216,2215,1); (2236,2215,1); (2215,2216,1); (2223,2216,1); (2230,2216,1); (2197,2217,1); (2222,2217,1); (2213,2218,1); (2228,2218,1); (2212,2219,1);
(2220,2219,1); (2219,2220,1); (2224,2220,1); (2209,2221,1)].
Definition minnesota_A_14 : list (N * N * N) := [
(2234,2221,1); (2253,2221,1); (2203,2222,1); (2217,2222,1); (2224,2222,1); (2242,2222,1); (2216,2223,1); (2235,2223,1); (2220,2224,1); (2222,2224,1); (2192,2225,1); (2243,2225,1);
(2151,2226,1); (2254,2226,1); (2287,2226,1); (2181,2227,1); (2237,2227,1); (2218,2228,1); (2232,2228,1); (2160,2229,1); (2244,2229,1); (2216,2230,1); (2239,2230,1); (2200,2231,1);
(2243,2231,1); (2248,2231,1); (2228,2232,1); (2240,2232,1); (2261,2233,1); (2221,2234,1); (2237,2234,1); (2258,2234,1); (2223,2235,1); (2239,2235,1); (2247,2235,1); (2215,2236,1);
(2238,2236,1); (2241,2236,1); (2227,2237,1); (2234,2237,1); (2260,2237,1); (2268,2237,1); (2236,2238,1); (2240,2238,1); (2230,2239,1); (2235,2239,1); (2241,2239,1); (2351,2239,1);
(2232,2240,1); (2238,2240,1); (2245,2240,1); (2236,2241,1); (2239,2241,1); (2222,2242,1); (2337,2242,1); (2225,2243,1); (2231,2243,1); (2290,2243,1); (2229,2244,1); (2252,2244,1);
(2261,2244,1); (2240,2245,1); (2354,2245,1); (2145,2246,1); (2247,2246,1); (2255,2246,1); (2235,2247,1); (2246,2247,1); (2231,2248,1); (2249,2248,1); (2199,2249,1); (2248,2249,1);
(2251,2249,1); (2288,2249,1); (2157,2250,1); (2251,2250,1); (2254,2250,1); (2353,2250,1); (2249,2251,1); (2250,2251,1); (2244,2252,1); (2294,2252,1); (2221,2253,1); (2257,2253,1);
(2258,2253,1); (2274,2253,1); (2226,2254,1); (2250,2254,1); (2246,2255,1); (2256,2255,1); (2267,2255,1); (2255,2256,1); (2335,2256,1); (2253,2257,1); (2262,2257,1); (2234,2258,1);
(2253,2258,1); (2263,2258,1); (2271,2258,1); (2260,2259,1); (2263,2259,1); (2237,2260,1); (2259,2260,1); (2264,2260,1); (2233,2261,1); (2244,2261,1); (2265,2261,1); (2266,2261,1);
(2257,2262,1); (2267,2262,1); (2258,2263,1); (2259,2263,1); (2264,2263,1); (2260,2264,1); (2263,2264,1); (2273,2264,1); (2261,2265,1); (2321,2265,1); (2261,2266,1); (2297,2266,1);
(2149,2267,1); (2255,2267,1); (2262,2267,1); (2237,2268,1); (2269,2268,1); (2273,2268,1); (2268,2269,1); (2270,2269,1); (2269,2270,1); (2277,2270,1); (2258,2271,1); (2273,2271,1);
(2280,2271,1); (2292,2271,1); (2283,2272,1); (2264,2273,1); (2268,2273,1); (2271,2273,1); (2292,2273,1); (2253,2274,1); (2280,2274,1); (2142,2275,1); (2276,2275,1); (2147,2276,1);
(2275,2276,1); (2282,2276,1); (2201,2277,1); (2270,2277,1); (2294,2277,1); (2299,2277,1); (2190,2278,1); (2319,2278,1); (2148,2279,1); (2285,2279,1); (2271,2280,1); (2274,2280,1);
(2282,2281,1); (2284,2281,1); (2382,2281,1); (2276,2282,1); (2281,2282,1); (2283,2282,1); (2272,2283,1); (2282,2283,1); (2374,2283,1); (2281,2284,1); (2285,2284,1); (2279,2285,1);
(2284,2285,1); (2286,2285,1); (2285,2286,1); (2287,2286,1); (2378,2286,1); (2226,2287,1); (2286,2287,1); (2355,2287,1); (2249,2288,1); (2289,2288,2); (2288,2289,2); (2295,2289,1);
(2296,2289,1); (2243,2290,1); (2291,2290,1); (2295,2290,1); (2290,2291,1); (2344,2291,1); (2271,2292,1); (2273,2292,1); (2293,2292,1); (2323,2292,1); (2292,2293,1); (2306,2293,1);
(2252,2294,1); (2277,2294,1); (2289,2295,1); (2290,2295,1); (2296,2295,1); (2289,2296,1); (2295,2296,1); (2313,2296,1); (2387,2296,1); (2266,2297,1); (2298,2297,1); (2314,2297,1);
(2324,2297,1); (2297,2298,1); (2301,2298,1); (2277,2299,1); (2305,2299,1); (2301,2300,1); (2326,2300,1); (2298,2301,1); (2300,2301,1); (2302,2301,1); (2301,2302,1); (2315,2302,1);
(2305,2303,1); (2307,2303,1); (2305,2304,1); (2308,2304,1); (2299,2305,1); (2303,2305,1); (2304,2305,1); (2309,2305,1); (2293,2306,1); (2310,2306,1); (2303,2307,1); (2310,2307,1);
(2304,2308,1); (2316,2308,1); (2305,2309,1); (2334,2309,1); (2306,2310,1); (2307,2310,1); (2311,2310,1); (2312,2310,1); (2310,2311,1); (2347,2311,1); (2310,2312,1); (2334,2312,1);
(2296,2313,1); (2353,2313,1); (2297,2314,1); (2317,2314,1); (2302,2315,1); (2317,2315,1); (2308,2316,1); (2317,2316,1); (2314,2317,1); (2315,2317,1); (2316,2317,1); (2318,2317,1);
(2317,2318,1); (2399,2318,1); (2197,2319,1); (2278,2319,1); (2340,2319,1); (2195,2320,1); (2333,2320,1); (2346,2320,1); (2265,2321,1); (2329,2321,1); (2323,2322,1); (2292,2323,1);
(2322,2323,1); (2332,2323,1); (2297,2324,1); (2327,2324,1); (2328,2325,1); (2329,2325,1); (2300,2326,1); (2327,2326,1); (2324,2327,1); (2326,2327,1); (2328,2327,1); (2330,2327,1);
(2325,2328,1); (2327,2328,1); (2321,2329,1); (2325,2329,1); (2331,2329,1); (2327,2330,1); (2398,2330,1); (2329,2331,1); (2364,2331,1); (2323,2332,1); (2338,2332,1); (2320,2333,1);
(2341,2333,1); (2390,2333,1); (2309,2334,1); (2312,2334,1); (2373,2334,1); (2256,2335,1); (2336,2335,1); (2357,2335,1); (2381,2335,1); (2335,2336,1); (2338,2336,1); (2242,2337,1);
(2340,2337,1); (2352,2337,1); (2385,2337,1); (2332,2338,1); (2336,2338,1); (2345,2338,1); (2192,2339,1); (2343,2339,1); (2346,2339,1); (2319,2340,1); (2337,2340,1); (2342,2340,1);
(2333,2341,1); (2342,2341,1); (2340,2342,1); (2341,2342,1); (2388,2342,1); (2339,2343,1); (2344,2343,1); (2291,2344,1); (2343,2344,1); (2393,2344,1); (2338,2345,1); (2348,2345,1);
(2320,2346,1); (2339,2346,1); (2391,2346,1); (2311,2347,1); (2348,2347,1); (2345,2348,1); (2347,2348,1); (2349,2348,1); (2350,2348,1); (2348,2349,1); (2403,2349,1); (2348,2350,1);
(2369,2350,1); (2239,2351,1); (2356,2351,1); (2360,2351,1); (2337,2352,1); (2358,2352,1); (2250,2353,1); (2313,2353,1); (2362,2353,1); (2245,2354,1); (2359,2354,1); (2287,2355,1);
(2363,2355,1); (2392,2355,1); (2351,2356,1); (2357,2356,1); (2368,2356,1); (2335,2357,1); (2356,2357,1); (2352,2358,1); (2359,2358,1); (2354,2359,1); (2358,2359,1); (2360,2359,1);
(2361,2359,1); (2351,2360,1); (2359,2360,1); (2359,2361,1); (2384,2361,1); (2353,2362,1); (2363,2362,1); (2371,2362,1); (2355,2363,1); (2362,2363,1); (2331,2364,1); (2366,2364,1);
(2367,2365,1); (2364,2366,1); (2367,2366,1); (2370,2366,1); (2365,2367,1); (2366,2367,1); (2356,2368,1); (2383,2368,1); (2350,2369,1); (2373,2369,1); (2402,2369,1); (2366,2370,1);
(2397,2370,1); (2362,2371,1); (2386,2371,1); (2389,2371,1); (2394,2372,1); (2395,2372,1); (2334,2373,1); (2369,2373,1); (2375,2373,1); (2283,2374,1); (2377,2374,1); (2597,2374,1);
(2373,2375,1); (2396,2375,1); (2377,2376,1); (2374,2377,1)].
Definition minnesota_A_15 : list (N * N * N) := [
(2376,2377,1); (2286,2378,1); (2379,2378,1); (2378,2379,1); (2542,2379,1); (2381,2380,1); (2465,2380,1); (2335,2381,1); (2380,2381,1); (2281,2382,1); (2556,2382,1); (2368,2383,1);
(2426,2383,1); (2361,2384,1); (2435,2384,1); (2337,2385,1); (2431,2385,1); (2371,2386,1); (2547,2386,1); (2296,2387,1); (2481,2387,1); (2342,2388,1); (2417,2388,1); (2371,2389,1);
(2404,2389,1); (2333,2390,1); (2417,2390,1); (2346,2391,1); (2416,2391,1); (2355,2392,1); (2537,2392,1); (2344,2393,1); (2447,2393,1); (2372,2394,1); (2400,2394,1); (2372,2395,1);
(2408,2395,1); (2375,2396,1); (2400,2396,1); (2370,2397,1); (2401,2397,1); (2330,2398,1); (2414,2398,1); (2318,2399,1); (2408,2399,1); (2394,2400,1); (2396,2400,1); (2439,2400,1);
(2397,2401,1); (2405,2401,1); (2369,2402,1); (2421,2402,1); (2349,2403,1); (2418,2403,1); (2389,2404,1); (2419,2404,1); (2554,2404,1); (2401,2405,1); (2406,2405,1); (2407,2405,1);
(2405,2406,1); (2405,2407,1); (2412,2407,1); (2395,2408,1); (2399,2408,1); (2409,2408,1); (2408,2409,1); (2410,2409,1); (2506,2409,1); (2409,2410,1); (2411,2410,1); (2618,2410,1);
(2410,2411,1); (2414,2411,1); (2407,2412,1); (2415,2412,1); (2623,2412,1); (2414,2413,1); (2415,2413,1); (2555,2413,1); (2398,2414,1); (2411,2414,1); (2413,2414,1); (2412,2415,1);
(2413,2415,1); (2555,2415,1); (2391,2416,1); (2417,2416,1); (2500,2416,1); (2388,2417,1); (2390,2417,1); (2416,2417,1); (2427,2417,1); (2507,2417,1); (2403,2418,1); (2423,2418,1);
(2404,2419,1); (2539,2419,1); (2421,2420,1); (2424,2420,1); (2402,2421,1); (2420,2421,1); (2422,2421,1); (2421,2422,1); (2432,2422,1); (2418,2423,1); (2424,2423,1); (2425,2423,1);
(2420,2424,1); (2423,2424,1); (2423,2425,1); (2474,2425,1); (2383,2426,1); (2428,2426,1); (2429,2426,1); (2417,2427,1); (2478,2427,1); (2426,2428,1); (2445,2428,1); (2426,2429,1);
(2446,2429,1); (2434,2430,1); (2437,2430,1); (2385,2431,1); (2437,2431,1); (2422,2432,1); (2433,2432,1); (2614,2432,1); (2432,2433,1); (2439,2433,1); (2430,2434,1); (2436,2434,1);
(2384,2435,1); (2444,2435,1); (2434,2436,1); (2438,2436,1); (2441,2436,1); (2430,2437,1); (2431,2437,1); (2440,2437,1); (2443,2437,1); (2436,2438,1); (2442,2438,1); (2400,2439,1);
(2433,2439,1); (2506,2439,1); (2437,2440,1); (2482,2440,1); (2436,2441,1); (2535,2441,1); (2438,2442,1); (2444,2442,1); (2437,2443,1); (2495,2443,1); (2435,2444,1); (2442,2444,1);
(2448,2444,1); (2458,2444,1); (2428,2445,1); (2449,2445,1); (2429,2446,1); (2454,2446,1); (2393,2447,1); (2450,2447,1); (2444,2448,1); (2502,2448,1); (2445,2449,1); (2451,2449,1);
(2455,2449,1); (2462,2449,1); (2447,2450,1); (2459,2450,1); (2449,2451,1); (2452,2451,1); (2451,2452,1); (2454,2452,1); (2454,2453,1); (2466,2453,1); (2446,2454,1); (2452,2454,1);
(2453,2454,1); (2461,2454,1); (2449,2455,1); (2477,2455,1); (2457,2456,1); (2459,2456,1); (2456,2457,1); (2470,2457,1); (2444,2458,1); (2464,2458,1); (2450,2459,1); (2456,2459,1);
(2460,2459,1); (2463,2459,1); (2459,2460,1); (2496,2460,1); (2454,2461,1); (2488,2461,1); (2449,2462,1); (2491,2462,1); (2459,2463,1); (2533,2463,1); (2458,2464,1); (2479,2464,1);
(2380,2465,1); (2476,2465,1); (2453,2466,1); (2467,2466,1); (2466,2467,1); (2469,2467,1); (2471,2467,1); (2472,2467,1); (2469,2468,1); (2475,2468,1); (2467,2469,1); (2468,2469,1);
(2457,2470,1); (2473,2470,1); (2467,2471,1); (2498,2471,1); (2467,2472,1); (2536,2472,1); (2470,2473,1); (2493,2473,1); (2425,2474,1); (2476,2474,1); (2468,2475,1); (2476,2475,1);
(2465,2476,1); (2474,2476,1); (2475,2476,1); (2480,2476,1); (2455,2477,1); (2486,2477,1); (2427,2478,1); (2490,2478,1); (2464,2479,1); (2483,2479,1); (2484,2479,1); (2476,2480,1);
(2621,2480,1); (2387,2481,1); (2499,2481,1); (2440,2482,1); (2541,2482,1); (2479,2483,1); (2523,2483,1); (2479,2484,1); (2504,2484,1); (2486,2485,1); (2491,2485,1); (2477,2486,1);
(2485,2486,1); (2501,2486,1); (2490,2487,1); (2494,2487,1); (2461,2488,1); (2489,2488,1); (2492,2488,1); (2497,2488,1); (2488,2489,1); (2497,2489,1); (2498,2489,1); (2478,2490,1);
(2487,2490,1); (2495,2490,1); (2505,2490,1); (2462,2491,1); (2485,2491,1); (2492,2491,1); (2488,2492,1); (2491,2492,1); (2497,2492,1); (2473,2493,1); (2513,2493,1); (2487,2494,1);
(2518,2494,1); (2443,2495,1); (2490,2495,1); (2460,2496,1); (2499,2496,1); (2488,2497,1); (2489,2497,1); (2492,2497,1); (2471,2498,1); (2489,2498,1); (2536,2498,1); (2481,2499,1);
(2496,2499,1); (2503,2499,1); (2508,2499,1); (2416,2500,1); (2512,2500,1); (2486,2501,1); (2510,2501,1); (2448,2502,1); (2509,2502,1); (2499,2503,1); (2530,2503,1); (2484,2504,1);
(2522,2504,1); (2490,2505,1); (2524,2505,1); (2409,2506,1); (2439,2506,1); (2613,2506,1); (2417,2507,1); (2526,2507,1); (2499,2508,1); (2531,2508,1); (2502,2509,1); (2514,2509,1);
(2516,2509,1); (2501,2510,1); (2515,2510,1); (2512,2511,1); (2527,2511,1); (2500,2512,1); (2511,2512,1); (2513,2512,1); (2528,2512,1); (2493,2513,1); (2512,2513,1); (2509,2514,1);
(2515,2514,1); (2510,2515,1); (2514,2515,1); (2509,2516,1); (2525,2516,1); (2519,2517,1); (2523,2517,1); (2494,2518,1); (2526,2518,1); (2517,2519,1); (2522,2519,1); (2531,2520,1);
(2533,2520,1); (2524,2521,1); (2575,2521,1); (2504,2522,1); (2519,2522,1); (2525,2522,1); (2529,2522,1); (2483,2523,1); (2517,2523,1); (2535,2523,1); (2505,2524,1); (2521,2524,1);
(2540,2524,1); (2516,2525,1); (2522,2525,1); (2507,2526,1); (2518,2526,1); (2527,2526,1); (2511,2527,1); (2526,2527,1); (2512,2528,1); (2550,2528,1); (2522,2529,1); (2586,2529,1);
(2503,2530,1); (2546,2530,1); (2508,2531,1); (2520,2531,1); (2543,2531,1); (2534,2532,1); (2550,2532,1); (2463,2533,1); (2520,2533,1); (2534,2533,1); (2610,2533,1); (2532,2534,1);
(2533,2534,1); (2441,2535,1); (2523,2535,1); (2538,2535,1); (2472,2536,1); (2498,2536,1); (2638,2536,1); (2392,2537,1); (2559,2537,1); (2535,2538,1); (2541,2538,1); (2593,2538,1);
(2419,2539,1); (2548,2539,1); (2524,2540,1); (2541,2540,1); (2482,2541,1); (2538,2541,1); (2540,2541,1); (2584,2541,1); (2379,2542,1); (2549,2542,1); (2531,2543,1); (2544,2543,1);
(2625,2543,1); (2543,2544,1); (2545,2544,1); (2544,2545,1)].
Definition minnesota_A_16 : list (N * N * N) := [
(2547,2545,1); (2530,2546,1); (2557,2546,1); (2386,2547,1); (2545,2547,1); (2553,2547,1); (2539,2548,1); (2558,2548,1); (2542,2549,1); (2551,2549,1); (2552,2549,1); (2528,2550,1);
(2532,2550,1); (2575,2550,1); (2549,2551,1); (2573,2551,1); (2549,2552,1); (2574,2552,1); (2547,2553,1); (2560,2553,1); (2404,2554,1); (2566,2554,1); (2413,2555,1); (2415,2555,1);
(2609,2555,1); (2382,2556,1); (2561,2556,1); (2546,2557,1); (2560,2557,1); (2548,2558,1); (2568,2558,1); (2537,2559,1); (2571,2559,1); (2553,2560,1); (2557,2560,1); (2564,2560,1);
(2579,2560,1); (2556,2561,1); (2562,2561,1); (2563,2561,1); (2580,2561,1); (2561,2562,1); (2605,2562,1); (2561,2563,1); (2574,2563,1); (2560,2564,1); (2567,2564,1); (2566,2565,1);
(2569,2565,1); (2554,2566,1); (2565,2566,1); (2567,2566,1); (2582,2566,1); (2564,2567,1); (2566,2567,1); (2558,2568,1); (2578,2568,1); (2565,2569,1); (2577,2569,1); (2571,2570,1);
(2573,2570,1); (2559,2571,1); (2570,2571,1); (2572,2571,1); (2581,2571,1); (2571,2572,1); (2576,2572,1); (2551,2573,1); (2570,2573,1); (2552,2574,1); (2563,2574,1); (2521,2575,1);
(2550,2575,1); (2635,2575,1); (2572,2576,1); (2578,2576,1); (2569,2577,1); (2578,2577,1); (2568,2578,1); (2576,2578,1); (2577,2578,1); (2583,2578,1); (2560,2579,1); (2594,2579,1);
(2561,2580,1); (2633,2580,1); (2571,2581,1); (2585,2581,1); (2566,2582,1); (2590,2582,1); (2578,2583,1); (2585,2583,1); (2541,2584,1); (2641,2584,1); (2581,2585,1); (2583,2585,1);
(2588,2585,1); (2529,2586,1); (2587,2586,1); (2586,2587,1); (2589,2587,1); (2585,2588,1); (2591,2588,1); (2608,2588,1); (2587,2589,1); (2596,2589,1); (2582,2590,1); (2592,2590,1);
(2594,2590,1); (2616,2590,1); (2588,2591,1); (2592,2591,1); (2590,2592,1); (2591,2592,1); (2538,2593,1); (2595,2593,1); (2579,2594,1); (2590,2594,1); (2631,2594,1); (2593,2595,1);
(2596,2595,1); (2589,2596,1); (2595,2596,1); (2598,2596,1); (2606,2596,1); (2374,2597,1); (2602,2597,1); (2596,2598,1); (2639,2598,1); (2600,2599,1); (2599,2600,1); (2602,2600,1);
(2602,2601,1); (2603,2601,1); (2597,2602,1); (2600,2602,1); (2601,2602,1); (2601,2603,1); (2604,2603,1); (2603,2604,1); (2605,2604,1); (2607,2604,1); (2562,2605,1); (2604,2605,1);
(2596,2606,1); (2640,2606,1); (2604,2607,1); (2611,2607,1); (2588,2608,1); (2612,2608,1); (2555,2609,1); (2617,2609,1); (2628,2609,1); (2533,2610,1); (2627,2610,1); (2607,2611,1);
(2608,2612,1); (2636,2612,1); (2637,2612,1); (2506,2613,1); (2615,2613,1); (2619,2613,1); (2432,2614,1); (2615,2614,1); (2620,2614,1); (2613,2615,1); (2614,2615,1); (2629,2615,1);
(2590,2616,1); (2622,2616,1); (2626,2616,1); (2609,2617,1); (2618,2617,1); (2410,2618,1); (2617,2618,1); (2619,2618,1); (2613,2619,1); (2618,2619,1); (2630,2619,1); (2614,2620,1);
(2621,2620,1); (2632,2620,1); (2480,2621,1); (2620,2621,1); (2616,2622,1); (2624,2622,1); (2412,2623,1); (2622,2624,1); (2543,2625,1); (2616,2626,1); (2610,2627,1); (2609,2628,1);
(2615,2629,1); (2619,2630,1); (2594,2631,1); (2620,2632,1); (2580,2633,1); (2634,2633,1); (2633,2634,1); (2575,2635,1); (2612,2636,1); (2612,2637,1); (2536,2638,1); (2598,2639,1);
(2606,2640,1); (2584,2641,1)].
(** The entries (row, column, value) of the sparse matrix A, column by column. *)
Definition minnesota_A : list (N * N * N) := minnesota_A_0 ++ minnesota_A_1 ++ minnesota_A_2 ++ minnesota_A_3 ++ minnesota_A_4 ++ minnesota_A_5 ++ minnesota_A_6 ++ minnesota_A_7 ++ minnesota_A_8 ++ minnesota_A_9 ++ minnesota_A_10 ++ minnesota_A_11 ++ minnesota_A_12 ++ minnesota_A_13 ++ minnesota_A_14 ++ minnesota_A_15 ++ minnesota_A_16.
Definition minnesota_tree_0 : list (N * N) := [
(314,354); (363,354); (348,354); (300,314); (361,363); (364,363); (347,348); (283,300); (301,300); (360,361); (362,364); (366,364);
(282,283); (280,301); (304,301); (312,301); (359,360); (379,360); (356,362); (365,366); (367,366); (267,282); (222,280); (281,280);
(302,304); (313,304); (357,359); (491,359); (388,379); (368,367); (378,367); (224,267); (266,267); (185,222); (274,281); (303,302);
(358,357); (521,357); (496,491); (385,388); (389,388); (384,378); (194,224); (179,185); (201,185); (221,274); (276,274); (273,303);
(308,303); (311,303); (401,358); (514,521); (518,521); (493,496); (500,496); (501,496); (383,385); (382,384); (386,384); (395,384);
(167,194); (184,194); (168,179); (173,179); (180,201); (223,273); (275,273); (309,308); (320,311); (404,401); (523,514); (519,518);
(507,500); (516,501); (381,382); (400,395); (116,167); (170,167); (174,167); (159,168); (172,168); (165,173); (177,180); (178,180);
(188,180); (279,275); (310,309); (322,320); (399,320); (402,404); (407,404); (425,404); (464,523); (539,523); (517,519); (528,519);
(520,516); (531,516); (411,400); (113,116); (166,174); (142,159); (160,159); (175,172); (162,165); (149,177); (176,178); (171,188);
(209,188); (212,279); (290,279); (307,310); (403,402); (462,425); (540,539); (542,539); (532,528); (533,520); (623,531); (416,411);
(109,113); (111,113); (161,166); (123,142); (157,162); (152,149); (211,209); (192,212); (208,212); (299,290); (306,307); (353,403);
(444,462); (465,462); (545,540); (595,540); (543,542); (541,532); (616,533); (622,623); (624,623); (107,109); (112,109); (155,161);
(100,123); (89,157); (99,152); (151,152); (169,192); (191,192); (210,208); (293,299); (317,299); (318,306); (341,353); (351,353);
(441,444); (524,465); (538,545); (573,545); (600,595); (544,543); (615,616); (632,622); (618,624); (106,107); (110,107); (114,112);
(93,100); (67,89); (91,89); (92,89); (95,99); (141,151); (164,151); (215,210); (253,293); (297,293); (350,317); (342,341);
(409,441); (534,441); (508,524); (551,538); (609,573); (625,573); (599,600); (602,600); (546,544); (631,632); (647,632); (619,618);
(103,106); (104,114); (84,93); (61,67); (68,92); (102,92); (83,95); (90,95); (98,141); (132,215); (217,215); (248,253);
(315,297); (335,297); (338,350); (373,350); (530,534); (566,534); (563,551); (576,551); (605,609); (626,625); (672,625); (592,599);
(604,599); (611,602); (552,546); (684,647); (689,647); (614,619); (617,619); (620,619); (105,103); (82,84); (59,61); (65,61);
(62,68); (88,90); (126,132); (130,132); (225,217); (245,248); (246,248); (249,248); (316,315); (333,335); (374,338); (569,566);
(580,566); (567,576); (606,605); (659,605); (628,626); (674,672); (612,604); (621,611); (683,684); (694,684); (687,689); (693,689);
(627,620); (76,82); (78,82); (54,59); (55,62); (60,62); (80,88); (128,126); (187,126); (94,130); (227,225); (231,225);
(244,246); (247,249); (254,249); (262,316); (321,316); (412,374); (579,569); (583,580); (607,606); (664,659); (673,659); (630,628);
(636,628); (675,674); (763,694); (690,687); (745,693); (629,627); (75,76); (77,76); (74,78); (42,54); (53,54); (46,60);
(63,60); (69,80); (79,80); (51,128); (127,128); (158,187); (195,187); (81,94); (228,227); (232,244); (263,254); (269,262);
(326,321); (413,412); (584,583); (734,607); (754,673); (634,630); (641,636); (676,675); (762,763); (789,763); (670,690); (715,690);
(749,745); (633,629); (73,75); (70,74); (34,42); (52,53); (40,46); (45,46); (56,69); (19,51); (131,127); (144,158);
(219,195); (226,195); (57,81); (277,269); (327,269); (398,326); (415,413); (594,413); (601,584); (731,734); (756,734); (757,754);
(642,634); (644,641); (685,676); (792,789); (861,789); (646,670); (717,715); (755,715); (751,749); (71,73); (15,34); (31,34);
(32,34); (41,52); (43,56); (18,19); (22,19); (139,131); (270,277); (328,327); (380,398); (405,398); (596,594); (597,594);
(598,601); (732,731); (760,756); (796,756); (758,757); (766,757); (645,644); (688,685); (791,792); (880,792); (858,861); (876,861);
(709,717); (780,755); (781,755); (787,751); (39,71); (14,15); (16,15); (23,31); (33,32); (10,43); (12,18); (17,18);
(44,22); (124,139); (145,270); (272,270); (324,328); (463,380); (588,597); (678,598); (729,732); (753,732); (761,760); (813,796);
(767,766); (769,766); (671,645); (686,688)].
Definition minnesota_tree_1 : list (N * N) := [
(691,688); (900,880); (857,858); (710,709); (779,780); (788,780); (807,781); (808,787); (21,39); (6,14); (13,14); (1,16);
(20,23); (9,10); (11,10); (8,12); (37,44); (49,44); (64,124); (129,124); (196,272); (278,272); (325,324); (414,324);
(513,463); (585,588); (679,678); (705,678); (728,729); (795,753); (775,761); (797,813); (825,813); (765,767); (771,769); (697,691);
(901,900); (1048,900); (856,857); (704,710); (714,710); (806,788); (854,807); (860,808); (0,6); (7,6); (4,9); (2,11);
(5,8); (30,37); (38,37); (50,49); (119,64); (125,129); (147,196); (197,196); (285,278); (287,278); (305,325); (343,325);
(457,414); (582,585); (677,679); (682,679); (706,679); (718,705); (733,728); (777,775); (827,825); (772,771); (892,901); (1045,1048);
(1049,1048); (1062,1048); (764,714); (838,806); (851,854); (855,854); (866,854); (3,2); (26,30); (35,38); (36,38); (47,38);
(120,50); (122,119); (143,125); (148,147); (286,197); (289,285); (288,287); (340,343); (449,457); (547,457); (581,582); (586,582);
(657,682); (703,682); (711,706); (719,733); (736,733); (742,733); (776,777); (778,777); (826,827); (829,827); (830,827); (770,772);
(773,772); (774,772); (878,892); (1040,1045); (1078,1049); (1094,1062); (811,838); (840,838); (842,838); (849,851); (902,855); (25,26);
(29,26); (27,35); (48,47); (121,120); (150,148); (292,286); (329,340); (339,340); (468,340); (504,449); (553,547); (577,581);
(578,581); (590,581); (587,586); (608,586); (708,703); (712,711); (737,736); (746,742); (783,776); (798,826); (834,829); (831,830);
(883,878); (1058,1040); (972,1078); (1027,1078); (1131,1078); (1106,1094); (1119,1094); (850,840); (832,842); (947,842); (907,902); (914,902);
(24,25); (28,25); (85,48); (140,121); (265,150); (294,292); (298,329); (337,339); (469,339); (536,468); (556,504); (554,553);
(555,553); (589,590); (658,590); (716,708); (726,737); (738,737); (740,737); (748,746); (835,834); (961,831); (899,883); (911,972);
(1023,1027); (1212,1027); (1150,1131); (1202,1106); (974,850); (959,947); (958,914); (87,85); (134,140); (261,265); (271,265); (295,294);
(330,337); (334,337); (535,469); (548,536); (550,555); (591,555); (692,658); (720,716); (721,726); (741,738); (743,740); (744,748);
(750,748); (836,835); (837,835); (969,961); (971,1023); (1024,1023); (1271,1212); (1198,1150); (1210,1150); (1208,1202); (1223,1202); (973,959);
(66,87); (108,87); (133,134); (257,261); (291,271); (323,271); (296,295); (331,334); (336,334); (537,535); (549,548); (613,591);
(680,692); (723,692); (785,741); (786,750); (870,836); (970,837); (984,969); (995,1024); (1187,1024); (1268,1271); (1270,1271); (1269,1210);
(1310,1208); (1221,1223); (1414,1223); (1006,973); (58,66); (97,66); (135,108); (136,108); (256,257); (284,257); (349,336); (529,537);
(564,537); (593,549); (603,549); (610,613); (637,613); (681,680); (724,723); (815,785); (812,786); (882,870); (985,984); (1232,1187);
(1267,1268); (1444,1270); (1276,1269); (1494,1269); (1409,1310); (1417,1414); (1060,1006); (1143,1006); (118,97); (218,135); (137,136); (250,256);
(255,256); (352,349); (494,529); (565,564); (638,564); (635,603); (669,637); (725,681); (816,815); (839,815); (818,812); (843,812);
(884,882); (903,882); (992,985); (1255,1232); (1279,1267); (1504,1444); (1532,1494); (1539,1409); (1421,1417); (1538,1417); (996,1060); (1194,1143);
(117,118); (153,118); (233,218); (138,137); (198,137); (239,250); (260,255); (390,352); (431,352); (502,494); (558,494); (639,638);
(643,638); (656,638); (640,635); (660,669); (794,725); (817,816); (886,816); (828,839); (868,839); (879,839); (819,818); (845,843);
(908,884); (917,903); (960,992); (1010,992); (1252,1255); (1292,1279); (1511,1504); (1534,1532); (1542,1539); (1537,1538); (1719,1538); (1204,1194);
(154,117); (190,117); (189,153); (235,233); (236,233); (163,138); (193,198); (200,198); (258,260); (345,390); (387,390); (433,390);
(495,502); (509,502); (559,558); (651,639); (667,656); (666,660); (805,794); (814,794); (887,817); (889,886); (869,868); (920,868);
(841,819); (844,819); (846,845); (847,845); (910,908); (919,908); (924,917); (925,960); (941,960); (1013,960); (1014,1010); (1240,1252);
(1286,1252); (1291,1292); (1404,1292); (1519,1511); (1545,1534); (1549,1534); (1546,1542); (1590,1542); (1736,1719); (205,190); (251,189); (332,189);
(238,236); (202,200); (203,200); (252,258); (259,258); (344,345); (393,387); (419,387); (461,433); (498,495); (510,509); (560,559);
(571,559); (650,651); (655,651); (759,667)].
Definition minnesota_tree_2 : list (N * N) := [
(668,666); (793,805); (824,805); (893,887); (909,889); (891,869); (978,920); (848,841); (853,844); (906,846); (859,847); (926,910);
(927,924); (939,941); (1026,1013); (1012,1014); (1203,1014); (1220,1240); (1266,1240); (1288,1286); (1290,1291); (1512,1404); (1569,1519); (1578,1549);
(1735,1590); (1734,1736); (1850,1736); (204,205); (264,205); (156,251); (268,251); (346,332); (237,238); (207,202); (206,203); (240,252);
(243,259); (375,344); (392,393); (423,419); (477,461); (487,461); (506,498); (505,510); (511,510); (515,510); (561,560); (570,571);
(649,650); (662,655); (752,759); (768,759); (707,668); (784,793); (864,824); (912,909); (890,891); (904,891); (962,978); (994,978);
(852,848); (863,848); (867,853); (862,859); (872,859); (929,926); (936,927); (937,939); (943,939); (1011,1026); (1025,1026); (1215,1203);
(1222,1203); (1285,1266); (1541,1288); (1543,1512); (1602,1569); (1603,1569); (1716,1578); (1742,1735); (1909,1735); (1852,1850); (1906,1850); (230,204);
(319,264); (186,156); (241,268); (355,346); (214,237); (216,207); (213,206); (234,243); (242,243); (369,375); (376,375); (377,375);
(391,392); (435,423); (455,423); (475,477); (479,477); (489,487); (492,506); (497,505); (557,515); (562,561); (568,570); (572,570);
(648,649); (652,649); (653,649); (663,662); (747,752); (782,768); (821,768); (713,707); (722,784); (894,864); (915,912); (916,912);
(905,904); (921,904); (933,962); (963,962); (1004,994); (1028,994); (865,863); (913,867); (874,872); (918,929); (931,929); (935,937);
(951,943); (1022,1025); (1536,1215); (1238,1222); (1540,1541); (1591,1541); (1730,1602); (1616,1603); (1717,1716); (1868,1742); (2016,1909); (1840,1852);
(1907,1852); (1930,1906); (229,230); (371,319); (199,186); (394,355); (220,216); (370,369); (396,391); (466,435); (456,455); (472,475);
(482,479); (488,489); (490,489); (486,492); (574,572); (575,652); (654,653); (661,663); (665,663); (735,747); (790,747); (820,782);
(833,821); (871,894); (922,916); (923,905); (928,921); (966,963); (1003,1004); (1029,1028); (877,865); (934,931); (953,931); (950,951);
(954,1022); (1047,1022); (1075,1022); (1530,1536); (1589,1536); (1257,1238); (1272,1238); (1755,1591); (1729,1730); (1722,1616); (1718,1717); (1723,1717);
(1869,1868); (2047,2016); (2032,1907); (2033,1930); (372,371); (417,371); (183,199); (408,394); (406,396); (470,466); (454,456); (459,456);
(476,472); (481,482); (483,482); (485,482); (527,575); (695,665); (698,735); (730,735); (809,790); (873,820); (822,833); (875,833);
(987,928); (975,966); (1030,1003); (1031,1029); (948,934); (955,953); (949,950); (1086,1047); (1306,1075); (1531,1530); (1820,1589); (1436,1272);
(1764,1755); (1997,1723); (1919,1869); (2051,2047); (2034,2032); (2052,2032); (2124,2032); (418,417); (181,183); (182,183); (421,408); (397,406);
(410,406); (467,470); (471,470); (473,470); (450,454); (460,459); (474,476); (478,476); (480,481); (701,695); (699,698); (727,730);
(739,730); (810,809); (896,873); (967,873); (881,875); (885,875); (1033,987); (968,975); (976,975); (977,975); (1032,1030); (1035,1031);
(1056,1031); (956,955); (952,949); (1089,1086); (1311,1086); (1309,1306); (1528,1531); (1588,1531); (1838,1820); (2003,1820); (1964,1764); (1998,1997);
(2031,1919); (2049,2051); (2054,2051); (2056,2051); (1948,2034); (2055,2034); (2053,2052); (2121,2124); (2125,2124); (422,418); (72,181); (146,182);
(420,421); (426,421); (432,410); (484,473); (451,450); (700,701); (702,701); (800,739); (801,810); (898,896); (982,967); (888,881);
(1038,1033); (1061,1033); (957,968); (1082,976); (1037,977); (1044,1035); (1057,1056); (1070,1056); (1108,1089); (1308,1311); (1355,1311); (1438,1309);
(1583,1588); (1837,1838); (2002,2003); (2043,2003); (1965,1964); (1994,1998); (2036,1998); (2048,2049); (2060,2054); (2059,2056); (2061,2056); (2127,2125);
(2142,2125); (424,422); (86,146); (101,146); (427,426); (434,432); (499,484); (452,451); (453,451); (696,700); (803,800); (897,898);
(932,898); (986,982); (1007,982); (1008,982); (1039,1038); (1071,1061); (1101,1061); (1050,1044); (1055,1044); (1067,1057); (1080,1070); (1109,1070);
(1164,1108); (1354,1355); (1567,1438); (1585,1583); (1614,1583); (1647,1837); (1819,1837); (1917,1837); (1988,2002); (2057,2043); (1999,1965); (1995,1994);
(2037,2036); (2065,2036); (2091,2060); (2130,2061); (2129,2127); (2275,2142); (96,101); (115,101); (428,427); (429,434); (436,434); (437,434);
(503,499); (447,452); (802,803); (804,803); (895,897); (930,897); (964,932); (990,986); (1019,986); (1036,1007); (1043,1008); (1041,1039);
(1103,1101); (1065,1050); (1140,1055); (1077,1067); (1117,1080); (1111,1109); (1170,1164); (1349,1354); (1439,1354); (1570,1585); (1648,1614); (1784,1819);
(1841,1819); (1992,1988); (2074,2057); (1996,1999)].
Definition minnesota_tree_3 : list (N * N) := [
(2000,1999); (2063,2065); (2133,2065); (2128,2091); (2131,2130); (2151,2130); (2137,2129); (2276,2275); (439,436); (445,437); (526,503); (446,447);
(799,802); (823,804); (938,895); (965,964); (981,990); (1015,990); (1020,1019); (1042,1019); (1139,1043); (1167,1140); (1110,1077); (1130,1117);
(1112,1111); (1114,1111); (1175,1170); (1177,1170); (1211,1349); (1348,1349); (1440,1349); (1455,1439); (1481,1570); (1571,1570); (1627,1570); (1650,1648);
(1652,1784); (1781,1784); (1962,1841); (2038,1992); (2069,2074); (2099,2074); (2064,2000); (2134,2133); (2157,2133); (2148,2128); (2226,2151); (2147,2137);
(2282,2276); (440,439); (512,526); (525,526); (448,446); (940,823); (945,938); (983,965); (1018,1015); (1046,1020); (1088,1042); (1141,1139);
(1162,1139); (1129,1130); (1134,1130); (1146,1130); (1113,1112); (1115,1114); (1174,1175); (1182,1175); (1185,1177); (1214,1348); (1382,1348); (1457,1440);
(1456,1455); (1576,1571); (1634,1627); (1782,1781); (1963,1962); (2040,2038); (2077,2099); (2198,2099); (2250,2157); (2279,2148); (2254,2226); (2287,2226);
(2281,2282); (2283,2282); (438,440); (442,440); (522,512); (458,448); (944,940); (989,983); (1021,983); (1147,1141); (1163,1162); (1142,1129);
(1118,1134); (1135,1134); (1181,1134); (1155,1146); (1133,1113); (1120,1115); (1200,1182); (1388,1382); (1470,1457); (1475,1457); (1572,1576); (1629,1576);
(1637,1634); (1780,1782); (1961,1963); (2039,1963); (2079,2040); (2087,2077); (2199,2198); (2251,2250); (2353,2250); (2285,2279); (2286,2287); (2355,2287);
(2284,2281); (2382,2281); (2272,2283); (2374,2283); (430,438); (443,442); (942,944); (946,944); (988,989); (1148,1021); (1218,1147); (1160,1163);
(1250,1163); (1138,1142); (1154,1142); (1136,1118); (1180,1181); (1186,1181); (1209,1181); (1149,1155); (1159,1155); (1161,1155); (1127,1133); (1199,1133);
(1123,1120); (1297,1200); (1393,1388); (1429,1388); (1482,1470); (1573,1572); (1626,1572); (1641,1629); (1638,1637); (1778,1780); (1833,1780); (1843,1961);
(2004,1961); (2062,2039); (2080,2079); (2083,2079); (2115,2087); (2249,2199); (2313,2353); (2362,2353); (2378,2286); (2363,2355); (2392,2355); (2556,2382);
(2377,2374); (2597,2374); (980,942); (998,946); (993,988); (1151,1148); (1224,1148); (1231,1218); (1254,1218); (1166,1160); (1248,1250); (1253,1250);
(1298,1250); (1178,1154); (1206,1154); (1168,1180); (1201,1186); (1219,1209); (1128,1149); (1179,1159); (1125,1127); (1124,1123); (1300,1297); (1367,1393);
(1408,1393); (1427,1429); (1430,1429); (1441,1482); (1492,1482); (1574,1573); (1677,1573); (1640,1626); (1771,1641); (1777,1778); (1831,1833); (2001,2004);
(2014,2004); (2072,2062); (2113,2062); (2114,2083); (2123,2115); (2248,2249); (2288,2249); (2296,2313); (2371,2362); (2379,2378); (2537,2392); (2561,2556);
(2376,2377); (2602,2597); (979,980); (991,980); (1000,998); (997,993); (1005,993); (1132,1151); (1157,1151); (1169,1151); (1241,1224); (1328,1254);
(1145,1166); (1213,1166); (1239,1248); (1323,1253); (1305,1298); (1205,1178); (1229,1206); (1227,1201); (1184,1179); (1296,1300); (1312,1300); (1366,1367);
(1415,1408); (1424,1427); (1428,1427); (1442,1427); (1437,1430); (1510,1430); (1523,1492); (1575,1574); (1695,1677); (1724,1640); (1787,1777); (1845,1831);
(1991,2001); (2013,2014); (2041,2014); (2078,2072); (2093,2113); (2118,2113); (2126,2123); (2200,2123); (2231,2248); (2289,2288); (2295,2296); (2387,2296);
(2386,2371); (2389,2371); (2542,2379); (2559,2537); (2562,2561); (2563,2561); (2580,2561); (2600,2602); (2601,2602); (1016,991); (1053,991); (999,1000);
(1001,1000); (1002,1000); (1009,1005); (1073,1132); (1192,1157); (1173,1169); (1263,1241); (1336,1328); (1236,1239); (1330,1323); (1303,1305); (1307,1305);
(1313,1305); (1228,1205); (1280,1229); (1226,1227); (1234,1227); (1193,1184); (1281,1296); (1343,1312); (1365,1366); (1426,1415); (1535,1442); (1533,1510);
(1561,1510); (1580,1575); (1606,1695); (1705,1695); (1765,1787); (1842,1845); (1880,1845); (1989,1991); (2073,2041); (2081,2078); (2090,2078); (2092,2093);
(2140,2118); (2167,2118); (2161,2126); (2243,2231); (2290,2295); (2481,2387); (2547,2386); (2404,2389); (2549,2542); (2571,2559); (2605,2562); (2574,2563);
(2633,2580); (2599,2600); (2603,2601); (1017,1016); (1054,1016); (1063,1053); (1052,1001); (1051,1002); (1034,1009); (1072,1073); (1074,1073); (1191,1192);
(1216,1192); (1172,1173); (1176,1173); (1264,1263); (1335,1336); (1338,1336); (1230,1236); (1249,1236); (1329,1330); (1332,1330); (1337,1330); (1289,1303);
(1325,1307); (1434,1313); (1282,1228); (1345,1280); (1207,1193); (1358,1365); (1459,1426); (1554,1535); (1563,1561); (1582,1580); (1598,1580); (1704,1705);
(1713,1765); (1763,1765); (1865,1842); (1892,1880); (1928,1989); (1975,1989); (2068,2081); (2095,2090); (2097,2092); (2168,2167); (2187,2161); (2225,2243);
(2291,2290); (2499,2481); (2545,2547); (2553,2547); (2419,2404); (2554,2404); (2551,2549); (2552,2549); (2570,2571); (2572,2571); (2581,2571); (2604,2605);
(2634,2633); (1096,1054); (1069,1063); (1064,1052); (1059,1051); (1081,1074); (1188,1191); (1244,1216); (1171,1172); (1242,1176); (1258,1264); (1265,1264);
(1333,1335); (1347,1338); (1275,1249); (1327,1329)].
Definition minnesota_tree_4 : list (N * N) := [
(1433,1337); (1287,1289); (1331,1325); (1416,1434); (1431,1434); (1445,1434); (1294,1282); (1346,1282); (1344,1345); (1458,1459); (1592,1598); (1680,1704);
(1710,1704); (1715,1713); (1743,1763); (1882,1865); (1897,1892); (1924,1928); (1927,1928); (1979,1975); (1980,2068); (2067,2068); (2136,2068); (2132,2095);
(2141,2097); (2162,2168); (2179,2168); (2185,2187); (2188,2187); (2192,2225); (2344,2291); (2496,2499); (2503,2499); (2508,2499); (2544,2545); (2560,2553);
(2539,2419); (2566,2554); (2573,2551); (2576,2572); (2585,2581); (2607,2604); (1097,1096); (1144,1096); (1066,1069); (1093,1069); (1068,1059); (1083,1081);
(1183,1188); (1189,1188); (1195,1188); (1245,1244); (1158,1171); (1284,1265); (1342,1347); (1443,1433); (1304,1287); (1351,1331); (1405,1416); (1432,1431);
(1453,1431); (1450,1445); (1334,1294); (1368,1346); (1352,1344); (1448,1458); (1461,1458); (1467,1458); (1593,1592); (1687,1680); (1700,1710); (1702,1715);
(1720,1715); (1712,1743); (1878,1882); (1883,1882); (1886,1882); (1901,1897); (1905,1924); (1925,1924); (1939,1927); (1976,1979); (1950,1980); (1978,1980);
(1981,1980); (2075,2067); (2135,2136); (2150,2136); (2156,2136); (2139,2132); (2143,2141); (2146,2162); (2163,2162); (2166,2162); (2171,2179); (2183,2179);
(2174,2185); (2191,2188); (2339,2192); (2343,2344); (2393,2344); (2460,2496); (2530,2503); (2531,2508); (2543,2544); (2557,2560); (2564,2560); (2579,2560);
(2548,2539); (2565,2566); (2567,2566); (2582,2566); (2578,2576); (2583,2585); (2588,2585); (2611,2607); (1100,1097); (1156,1097); (1165,1144); (1092,1093);
(1098,1093); (1076,1068); (1084,1083); (1137,1183); (1190,1189); (1237,1195); (1243,1245); (1126,1158); (1293,1284); (1339,1342); (1447,1443); (1324,1304);
(1400,1405); (1403,1405); (1422,1405); (1464,1453); (1449,1450); (1451,1450); (1454,1450); (1341,1334); (1364,1368); (1363,1352); (1548,1467); (1594,1593);
(1664,1687); (1694,1687); (1711,1712); (1721,1712); (1826,1878); (1873,1883); (1908,1883); (1903,1886); (1915,1886); (1902,1901); (1940,1939); (1968,1976);
(1949,1950); (1977,1978); (1984,1981); (2085,2075); (2106,2135); (2155,2150); (2153,2156); (2165,2139); (2164,2163); (2173,2171); (2170,2174); (2180,2174);
(2196,2191); (2346,2339); (2447,2393); (2459,2460); (2546,2530); (2520,2531); (2625,2543); (2594,2579); (2558,2548); (2569,2565); (2590,2582); (2568,2578);
(2577,2578); (2591,2588); (2608,2588); (1091,1100); (1153,1100); (1197,1165); (1217,1165); (1090,1092); (1102,1098); (1152,1098); (1079,1076); (1085,1084);
(1122,1137); (1196,1190); (1256,1243); (1295,1293); (1299,1293); (1326,1339); (1340,1339); (1350,1339); (1446,1447); (1452,1447); (1460,1447); (1353,1400);
(1463,1464); (1465,1464); (1466,1464); (1544,1454); (1553,1548); (1555,1594); (1658,1664); (1701,1711); (1727,1721); (1785,1826); (1825,1826); (1872,1873);
(1911,1873); (1947,1949); (1983,1984); (2086,2085); (2104,2106); (2203,2155); (2144,2153); (2169,2165); (2175,2170); (2195,2196); (2320,2346); (2391,2346);
(2450,2447); (2456,2459); (2463,2459); (2533,2520); (2631,2594); (2592,2590); (2616,2590); (2612,2608); (1225,1153); (1318,1217); (1104,1102); (1087,1085);
(1121,1122); (1247,1196); (1302,1256); (1315,1295); (1371,1340); (1401,1350); (1435,1446); (1468,1460); (1529,1466); (1551,1544); (1607,1544); (1557,1553);
(1655,1658); (1665,1701); (1737,1727); (1761,1727); (1792,1785); (1827,1825); (1867,1872); (1918,1911); (1945,1947); (1973,1983); (2082,2086); (2088,2086);
(2089,2086); (2100,2104); (2102,2104); (2107,2104); (2222,2203); (2138,2144); (2154,2144); (2176,2169); (2178,2169); (2189,2175); (2194,2195); (2333,2320);
(2416,2391); (2457,2456); (2534,2533); (2610,2533); (2622,2616); (2626,2616); (2636,2612); (2637,2612); (1233,1225); (1319,1318); (1105,1104); (1095,1087);
(1116,1121); (1246,1247); (1274,1247); (1317,1302); (1385,1371); (1411,1401); (1474,1468); (1615,1529); (1622,1607); (1675,1607); (1586,1557); (1651,1655);
(1662,1655); (1733,1737); (1744,1737); (1762,1761); (1769,1792); (1793,1792); (1828,1827); (1866,1867); (1870,1918); (1916,1918); (1944,1945); (1969,1945);
(2021,1973); (2076,2082); (2094,2088); (2101,2102); (2119,2107); (2217,2222); (2224,2222); (2242,2222); (2186,2138); (2197,2154); (2177,2176); (2190,2176);
(2341,2333); (2390,2333); (2417,2416); (2500,2416); (2470,2457); (2532,2534); (2627,2610); (2624,2622); (1235,1233); (1314,1233); (1320,1319); (1362,1319);
(1099,1105); (1107,1105); (1251,1246); (1283,1274); (1316,1317); (1322,1317); (1380,1385); (1390,1385); (1410,1411); (1412,1411); (1473,1474); (1480,1474);
(1610,1615); (1673,1615); (1600,1622); (1682,1675); (1595,1586); (1621,1651); (1683,1662); (1731,1733); (1745,1744); (1753,1744); (1760,1762); (1794,1793);
(1807,1828); (1834,1828); (1854,1866); (1855,1916); (1904,1916); (1942,1944); (1974,1969); (2019,2021); (2029,2076); (2084,2094); (2105,2101); (2152,2119);
(2220,2224); (2337,2242); (2193,2186); (2319,2197); (2278,2190); (2342,2341); (2388,2417); (2427,2417); (2507,2417); (2512,2500); (2473,2470); (2550,2532);
(1259,1235); (1301,1235); (1359,1314); (1356,1362); (1361,1362); (1370,1362); (1261,1251); (1277,1283); (1369,1322); (1375,1380); (1402,1390); (1413,1410);
(1418,1412); (1472,1473); (1587,1480); (1611,1610)].
Definition minnesota_tree_5 : list (N * N) := [
(1688,1673); (1681,1682); (1693,1682); (1726,1731); (1728,1731); (1747,1745); (1749,1745); (1758,1753); (1796,1753); (1752,1760); (1800,1794); (1811,1807);
(1849,1854); (1864,1904); (1893,1904); (1943,1942); (1971,1974); (2015,2019); (2017,2019); (2058,2084); (2116,2105); (2202,2152); (2219,2220); (2340,2337);
(2352,2337); (2385,2337); (2478,2427); (2526,2507); (2511,2512); (2513,2512); (2528,2512); (2493,2473); (2575,2550); (1260,1259); (1278,1301); (1357,1301);
(1378,1359); (1376,1370); (1384,1370); (1273,1277); (1373,1369); (1406,1402); (1423,1418); (1478,1418); (1469,1472); (1609,1587); (1612,1611); (1624,1611);
(1686,1688); (1690,1688); (1714,1693); (1750,1747); (1789,1749); (1772,1758); (1795,1796); (1812,1796); (1768,1752); (1805,1811); (1857,1849); (1858,1864);
(1874,1864); (1894,1893); (1941,1943); (1951,1943); (1954,1943); (1953,1971); (1972,1971); (1970,2015); (2018,2017); (2044,2058); (2117,2116); (2204,2202);
(2212,2219); (2358,2352); (2431,2385); (2490,2478); (2518,2526); (2527,2526); (2521,2575); (2635,2575); (1262,1260); (1321,1278); (1360,1357); (1372,1357);
(1379,1378); (1381,1378); (1395,1376); (1397,1384); (1425,1384); (1374,1373); (1407,1406); (1419,1406); (1462,1423); (1488,1478); (1471,1469); (1484,1469);
(1608,1609); (1613,1609); (1657,1624); (1672,1690); (1783,1750); (1790,1789); (1770,1772); (1806,1812); (1808,1812); (1798,1805); (1836,1858); (1875,1874);
(1895,1894); (1921,1941); (1920,1953); (1946,1953); (1967,1972); (2022,2018); (2035,2044); (2045,2044); (2112,2117); (2145,2117); (2205,2204); (2208,2212);
(2359,2358); (2437,2431); (2487,2490); (2495,2490); (2505,2490); (2494,2518); (2524,2521); (1377,1379); (1420,1381); (1399,1395); (1398,1397); (1477,1425);
(1383,1374); (1396,1407); (1491,1419); (1490,1488); (1493,1488); (1581,1484); (1584,1608); (1674,1657); (1799,1790); (1756,1770); (1766,1770); (1779,1770);
(1813,1806); (1848,1836); (1876,1875); (1891,1895); (1896,1895); (1899,1895); (1912,1946); (1910,1967); (1966,1967); (2023,2022); (2027,2035); (2030,2035);
(2025,2045); (2042,2045); (2098,2112); (2111,2112); (2246,2145); (2206,2205); (2207,2205); (2210,2205); (2354,2359); (2360,2359); (2361,2359); (2430,2437);
(2440,2437); (2443,2437); (2540,2524); (1387,1377); (1476,1420); (1479,1398); (1486,1477); (1386,1383); (1391,1396); (1495,1491); (1508,1493); (1596,1581);
(1656,1584); (1676,1674); (1684,1674); (1725,1756); (1738,1766); (1802,1779); (1809,1813); (1856,1848); (1871,1876); (1877,1876); (1888,1912); (1898,1910);
(1982,1966); (2026,2023); (2012,2027); (2028,2030); (2071,2098); (2103,2098); (2149,2098); (2024,2111); (2247,2246); (2255,2246); (2215,2207); (2211,2210);
(2245,2354); (2351,2360); (2384,2361); (2434,2430); (2482,2440); (2541,2540); (1389,1387); (1497,1476); (1485,1486); (1487,1486); (1489,1486); (1498,1495);
(1502,1495); (1507,1508); (1620,1596); (1654,1596); (1666,1656); (1668,1676); (1740,1738); (1814,1802); (1860,1856); (1863,1871); (1862,1888); (1889,1888);
(1900,1898); (1923,1982); (1986,1982); (2020,2028); (2010,2071); (2109,2103); (2267,2149); (2011,2024); (2235,2247); (2256,2255); (2214,2215); (2216,2215);
(2236,2215); (2213,2211); (2240,2245); (2239,2351); (2356,2351); (2435,2384); (2436,2434); (2538,2541); (2584,2541); (1392,1389); (1514,1497); (1483,1485);
(1515,1487); (1579,1489); (1496,1498); (1506,1498); (1505,1502); (1521,1507); (1633,1620); (1661,1654); (1667,1666); (1679,1666); (1707,1740); (1739,1740);
(1748,1740); (1815,1814); (1818,1814); (1861,1860); (1830,1889); (1887,1900); (1914,1900); (1929,1986); (1987,1986); (2008,2010); (2009,2010); (2005,2109);
(2110,2109); (2262,2267); (2007,2011); (2223,2235); (2335,2256); (2230,2216); (2238,2236); (2241,2236); (2218,2213); (2232,2240); (2357,2356); (2368,2356);
(2444,2435); (2438,2436); (2441,2436); (2535,2538); (2593,2538); (2641,2584); (1394,1392); (1513,1514); (1527,1514); (1597,1579); (1699,1579); (1500,1496);
(1524,1506); (1562,1521); (1631,1633); (1678,1633); (1663,1661); (1669,1661); (1741,1739); (1754,1748); (1804,1815); (1817,1815); (1832,1818); (1859,1861);
(1791,1830); (1829,1830); (1884,1887); (1913,1914); (1926,1929); (1931,1929); (1993,1987); (1985,2008); (1990,2008); (2006,2009); (1959,2005); (2122,2110);
(2257,2262); (2336,2335); (2381,2335); (2228,2218); (2383,2368); (2442,2444); (2448,2444); (2458,2444); (2523,2535); (2595,2593); (1503,1394); (1516,1513);
(1558,1527); (1599,1597); (1698,1597); (1801,1699); (1499,1500); (1525,1524); (1560,1524); (1564,1524); (1566,1562); (1630,1631); (1689,1678); (1670,1663);
(1732,1741); (1746,1741); (1751,1754); (1767,1754); (1773,1754); (1821,1829); (1844,1884); (1879,1884); (1932,1926); (1933,1985); (1955,1990); (1958,1959);
(2120,2122); (2158,2122); (2253,2257); (2338,2336); (2380,2381); (2426,2383); (2502,2448); (2464,2458); (2483,2523); (2517,2523); (2596,2595); (1517,1503);
(1518,1516); (1559,1558); (1601,1599); (1697,1698); (1757,1698); (1788,1801); (1803,1801); (1501,1499); (1509,1499); (1605,1525); (1639,1560); (1568,1566);
(1625,1630); (1636,1630); (1703,1689); (1671,1670); (1685,1732); (1775,1821); (1822,1821); (1846,1844); (1851,1933); (1934,1933); (1938,1955); (1957,1955);
(1956,1958); (2108,2120); (2172,2158); (2221,2253)].
Definition minnesota_tree_6 : list (N * N) := [
(2258,2253); (2274,2253); (2332,2338); (2345,2338); (2465,2380); (2428,2426); (2429,2426); (2509,2502); (2479,2464); (2519,2517); (2589,2596); (2598,2596);
(2606,2596); (1520,1517); (1526,1517); (1552,1559); (1619,1601); (1645,1601); (1696,1697); (1759,1757); (1776,1788); (1797,1788); (1522,1501); (1623,1605);
(1643,1639); (1577,1568); (1653,1636); (1709,1703); (1659,1671); (1786,1822); (1816,1822); (1847,1846); (1839,1851); (1935,1934); (1936,1938); (1952,1956);
(1960,1956); (2050,2108); (2070,2108); (2159,2108); (2181,2172); (2209,2172); (2234,2221); (2263,2258); (2271,2258); (2280,2274); (2323,2332); (2348,2345);
(2476,2465); (2445,2428); (2446,2429); (2514,2509); (2516,2509); (2484,2479); (2522,2519); (2587,2589); (2639,2598); (2640,2606); (1547,1526); (1550,1552);
(1618,1619); (1649,1619); (1691,1645); (1692,1696); (1635,1759); (1810,1797); (1617,1623); (1628,1623); (1642,1643); (1644,1643); (1646,1643); (1708,1709);
(1774,1709); (1660,1659); (1823,1816); (1835,1847); (1853,1839); (1922,1935); (1937,1935); (2046,1960); (2066,2070); (2096,2070); (2182,2181); (2227,2181);
(2237,2234); (2259,2263); (2264,2263); (2273,2271); (2292,2271); (2322,2323); (2347,2348); (2349,2348); (2350,2348); (2474,2476); (2475,2476); (2480,2476);
(2449,2445); (2454,2446); (2515,2514); (2525,2516); (2504,2484); (2529,2522); (2586,2587); (1556,1550); (1824,1810); (1604,1617); (1632,1628); (1706,1646);
(1885,1853); (1890,1922); (1881,1937); (2160,2096); (2184,2096); (2260,2237); (2268,2237); (2293,2292); (2311,2347); (2403,2349); (2369,2350); (2425,2474);
(2468,2475); (2621,2480); (2451,2449); (2455,2449); (2462,2449); (2452,2454); (2453,2454); (2461,2454); (2510,2515); (1565,1556); (2229,2160); (2201,2184);
(2269,2268); (2306,2293); (2310,2311); (2418,2403); (2373,2369); (2402,2369); (2423,2425); (2469,2468); (2620,2621); (2477,2455); (2491,2462); (2466,2453);
(2488,2461); (2501,2510); (2244,2229); (2277,2201); (2270,2269); (2307,2310); (2312,2310); (2334,2373); (2375,2373); (2421,2402); (2424,2423); (2467,2469);
(2614,2620); (2632,2620); (2486,2477); (2485,2491); (2492,2491); (2489,2488); (2497,2488); (2252,2244); (2261,2244); (2294,2277); (2299,2277); (2303,2307);
(2309,2334); (2396,2375); (2420,2421); (2422,2421); (2471,2467); (2472,2467); (2432,2614); (2615,2614); (2498,2489); (2233,2261); (2265,2261); (2266,2261);
(2305,2299); (2400,2396); (2536,2472); (2433,2432); (2613,2615); (2629,2615); (2321,2265); (2297,2266); (2304,2305); (2394,2400); (2439,2400); (2638,2536);
(2506,2613); (2619,2613); (2329,2321); (2298,2297); (2314,2297); (2324,2297); (2308,2304); (2372,2394); (2409,2506); (2618,2619); (2630,2619); (2325,2329);
(2331,2329); (2301,2298); (2317,2314); (2327,2324); (2316,2308); (2395,2372); (2408,2409); (2410,2409); (2617,2618); (2328,2325); (2364,2331); (2300,2301);
(2302,2301); (2315,2317); (2318,2317); (2326,2327); (2330,2327); (2399,2408); (2411,2410); (2609,2617); (2366,2364); (2398,2330); (2414,2411); (2555,2609);
(2628,2609); (2367,2366); (2370,2366); (2413,2414); (2415,2555); (2365,2367); (2397,2370); (2412,2415); (2401,2397); (2407,2412); (2623,2412); (2405,2401);
(2406,2405)].
(** A spanning tree (child, parent) rooted at 354, with the added road 348-354. *)
Definition minnesota_tree : list (N * N) := minnesota_tree_0 ++ minnesota_tree_1 ++ minnesota_tree_2 ++ minnesota_tree_3 ++ minnesota_tree_4 ++ minnesota_tree_5 ++ minnesota_tree_6.
