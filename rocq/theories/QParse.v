(** Every text of the language of QText is matched by the grammar that the engine compiled, and the actions do what QText
    says. *)
From Coq Require Import String SpecFloat.
From Verif Require Import Base Token Grammar Matcher PegSpec MatchProofs MatchProofs2 PegTools Compiler Interp QValue Qlang QlangSpec QlangTop QText QTidy QStep QGlue PegRel.
Local Open Scope Z_scope.

Scheme factor_mi := Minimality for factor_is Sort Prop
with base_mi := Minimality for base_is Sort Prop
with atoms_mi := Minimality for atoms_are Sort Prop
with ops1_mi := Minimality for ops1_are Sort Prop
with term1_mi := Minimality for term1_is Sort Prop
with ops2_mi := Minimality for ops2_are Sort Prop
with term2_mi := Minimality for term2_is Sort Prop
with ops3_mi := Minimality for ops3_are Sort Prop
with term3_mi := Minimality for term3_is Sort Prop
with ops4_mi := Minimality for ops4_are Sort Prop
with term4_mi := Minimality for term4_is Sort Prop
with ops5_mi := Minimality for ops5_are Sort Prop
with expr_mi := Minimality for expr_is Sort Prop
with oexpr_mi := Minimality for opt_expr Sort Prop
with ovalue_mi := Minimality for opt_value Sort Prop
with exprs_mi := Minimality for exprs_are Sort Prop
with more_mi := Minimality for more_are Sort Prop
with entries_mi := Minimality for entries_are Sort Prop
with mentries_mi := Minimality for more_entries Sort Prop
with body_mi := Minimality for body_is Sort Prop
with elifs_mi := Minimality for elifs_are Sort Prop
with else_mi := Minimality for else_is Sort Prop
with cases_mi := Minimality for cases_are Sort Prop
with default_mi := Minimality for default_is Sort Prop
with header_mi := Minimality for header_is Sort Prop
with mheader_mi := Minimality for more_header Sort Prop
with fnbody_mi := Minimality for fnbody_is Sort Prop
with clsname_mi := Minimality for clsname_is Sort Prop
with newargs_mi := Minimality for newargs_are Sort Prop
with methods_mi := Minimality for methods_are Sort Prop
with stmt_mi := Minimality for stmt_is Sort Prop
with rest_mi := Minimality for rest_is Sort Prop
with doc_mi := Minimality for doc_is Sort Prop
with odoc_mi := Minimality for opt_doc Sort Prop.
(** all of them at once *)
Definition text_mi W L P0 P1 P2 P3 P4 P5 P6 P7 P8 P9 P10 P11 P12 P13 P14 P15 P16 P17 P18 P19 P20 P21 P22 P23 P24 P25 P26 P27 P28 P29 P30 P31 P32 P33 c0 c1 c2 c3 c4 c5 c6 c7 c8 c9 c10 c11 c12 c13 c14 c15 c16 c17 c18 c19 c20 c21 c22 c23 c24 c25 c26 c27 c28 c29 c30 c31 c32 c33 c34 c35 c36 c37 c38 c39 c40 c41 c42 c43 c44 c45 c46 c47 c48 c49 c50 c51 c52 c53 c54 c55 c56 c57 c58 c59 c60 c61 c62 c63 c64 c65 c66 c67 c68 c69 c70 c71 c72 c73 c74 c75 c76 c77 c78 c79 c80 c81 c82 c83 c84 :=
  conj (@factor_mi W L P0 P1 P2 P3 P4 P5 P6 P7 P8 P9 P10 P11 P12 P13 P14 P15 P16 P17 P18 P19 P20 P21 P22 P23 P24 P25 P26 P27 P28 P29 P30 P31 P32 P33 c0 c1 c2 c3 c4 c5 c6 c7 c8 c9 c10 c11 c12 c13 c14 c15 c16 c17 c18 c19 c20 c21 c22 c23 c24 c25 c26 c27 c28 c29 c30 c31 c32 c33 c34 c35 c36 c37 c38 c39 c40 c41 c42 c43 c44 c45 c46 c47 c48 c49 c50 c51 c52 c53 c54 c55 c56 c57 c58 c59 c60 c61 c62 c63 c64 c65 c66 c67 c68 c69 c70 c71 c72 c73 c74 c75 c76 c77 c78 c79 c80 c81 c82 c83 c84)
  (conj (@base_mi W L P0 P1 P2 P3 P4 P5 P6 P7 P8 P9 P10 P11 P12 P13 P14 P15 P16 P17 P18 P19 P20 P21 P22 P23 P24 P25 P26 P27 P28 P29 P30 P31 P32 P33 c0 c1 c2 c3 c4 c5 c6 c7 c8 c9 c10 c11 c12 c13 c14 c15 c16 c17 c18 c19 c20 c21 c22 c23 c24 c25 c26 c27 c28 c29 c30 c31 c32 c33 c34 c35 c36 c37 c38 c39 c40 c41 c42 c43 c44 c45 c46 c47 c48 c49 c50 c51 c52 c53 c54 c55 c56 c57 c58 c59 c60 c61 c62 c63 c64 c65 c66 c67 c68 c69 c70 c71 c72 c73 c74 c75 c76 c77 c78 c79 c80 c81 c82 c83 c84)
  (conj (@atoms_mi W L P0 P1 P2 P3 P4 P5 P6 P7 P8 P9 P10 P11 P12 P13 P14 P15 P16 P17 P18 P19 P20 P21 P22 P23 P24 P25 P26 P27 P28 P29 P30 P31 P32 P33 c0 c1 c2 c3 c4 c5 c6 c7 c8 c9 c10 c11 c12 c13 c14 c15 c16 c17 c18 c19 c20 c21 c22 c23 c24 c25 c26 c27 c28 c29 c30 c31 c32 c33 c34 c35 c36 c37 c38 c39 c40 c41 c42 c43 c44 c45 c46 c47 c48 c49 c50 c51 c52 c53 c54 c55 c56 c57 c58 c59 c60 c61 c62 c63 c64 c65 c66 c67 c68 c69 c70 c71 c72 c73 c74 c75 c76 c77 c78 c79 c80 c81 c82 c83 c84)
  (conj (@ops1_mi W L P0 P1 P2 P3 P4 P5 P6 P7 P8 P9 P10 P11 P12 P13 P14 P15 P16 P17 P18 P19 P20 P21 P22 P23 P24 P25 P26 P27 P28 P29 P30 P31 P32 P33 c0 c1 c2 c3 c4 c5 c6 c7 c8 c9 c10 c11 c12 c13 c14 c15 c16 c17 c18 c19 c20 c21 c22 c23 c24 c25 c26 c27 c28 c29 c30 c31 c32 c33 c34 c35 c36 c37 c38 c39 c40 c41 c42 c43 c44 c45 c46 c47 c48 c49 c50 c51 c52 c53 c54 c55 c56 c57 c58 c59 c60 c61 c62 c63 c64 c65 c66 c67 c68 c69 c70 c71 c72 c73 c74 c75 c76 c77 c78 c79 c80 c81 c82 c83 c84)
  (conj (@term1_mi W L P0 P1 P2 P3 P4 P5 P6 P7 P8 P9 P10 P11 P12 P13 P14 P15 P16 P17 P18 P19 P20 P21 P22 P23 P24 P25 P26 P27 P28 P29 P30 P31 P32 P33 c0 c1 c2 c3 c4 c5 c6 c7 c8 c9 c10 c11 c12 c13 c14 c15 c16 c17 c18 c19 c20 c21 c22 c23 c24 c25 c26 c27 c28 c29 c30 c31 c32 c33 c34 c35 c36 c37 c38 c39 c40 c41 c42 c43 c44 c45 c46 c47 c48 c49 c50 c51 c52 c53 c54 c55 c56 c57 c58 c59 c60 c61 c62 c63 c64 c65 c66 c67 c68 c69 c70 c71 c72 c73 c74 c75 c76 c77 c78 c79 c80 c81 c82 c83 c84)
  (conj (@ops2_mi W L P0 P1 P2 P3 P4 P5 P6 P7 P8 P9 P10 P11 P12 P13 P14 P15 P16 P17 P18 P19 P20 P21 P22 P23 P24 P25 P26 P27 P28 P29 P30 P31 P32 P33 c0 c1 c2 c3 c4 c5 c6 c7 c8 c9 c10 c11 c12 c13 c14 c15 c16 c17 c18 c19 c20 c21 c22 c23 c24 c25 c26 c27 c28 c29 c30 c31 c32 c33 c34 c35 c36 c37 c38 c39 c40 c41 c42 c43 c44 c45 c46 c47 c48 c49 c50 c51 c52 c53 c54 c55 c56 c57 c58 c59 c60 c61 c62 c63 c64 c65 c66 c67 c68 c69 c70 c71 c72 c73 c74 c75 c76 c77 c78 c79 c80 c81 c82 c83 c84)
  (conj (@term2_mi W L P0 P1 P2 P3 P4 P5 P6 P7 P8 P9 P10 P11 P12 P13 P14 P15 P16 P17 P18 P19 P20 P21 P22 P23 P24 P25 P26 P27 P28 P29 P30 P31 P32 P33 c0 c1 c2 c3 c4 c5 c6 c7 c8 c9 c10 c11 c12 c13 c14 c15 c16 c17 c18 c19 c20 c21 c22 c23 c24 c25 c26 c27 c28 c29 c30 c31 c32 c33 c34 c35 c36 c37 c38 c39 c40 c41 c42 c43 c44 c45 c46 c47 c48 c49 c50 c51 c52 c53 c54 c55 c56 c57 c58 c59 c60 c61 c62 c63 c64 c65 c66 c67 c68 c69 c70 c71 c72 c73 c74 c75 c76 c77 c78 c79 c80 c81 c82 c83 c84)
  (conj (@ops3_mi W L P0 P1 P2 P3 P4 P5 P6 P7 P8 P9 P10 P11 P12 P13 P14 P15 P16 P17 P18 P19 P20 P21 P22 P23 P24 P25 P26 P27 P28 P29 P30 P31 P32 P33 c0 c1 c2 c3 c4 c5 c6 c7 c8 c9 c10 c11 c12 c13 c14 c15 c16 c17 c18 c19 c20 c21 c22 c23 c24 c25 c26 c27 c28 c29 c30 c31 c32 c33 c34 c35 c36 c37 c38 c39 c40 c41 c42 c43 c44 c45 c46 c47 c48 c49 c50 c51 c52 c53 c54 c55 c56 c57 c58 c59 c60 c61 c62 c63 c64 c65 c66 c67 c68 c69 c70 c71 c72 c73 c74 c75 c76 c77 c78 c79 c80 c81 c82 c83 c84)
  (conj (@term3_mi W L P0 P1 P2 P3 P4 P5 P6 P7 P8 P9 P10 P11 P12 P13 P14 P15 P16 P17 P18 P19 P20 P21 P22 P23 P24 P25 P26 P27 P28 P29 P30 P31 P32 P33 c0 c1 c2 c3 c4 c5 c6 c7 c8 c9 c10 c11 c12 c13 c14 c15 c16 c17 c18 c19 c20 c21 c22 c23 c24 c25 c26 c27 c28 c29 c30 c31 c32 c33 c34 c35 c36 c37 c38 c39 c40 c41 c42 c43 c44 c45 c46 c47 c48 c49 c50 c51 c52 c53 c54 c55 c56 c57 c58 c59 c60 c61 c62 c63 c64 c65 c66 c67 c68 c69 c70 c71 c72 c73 c74 c75 c76 c77 c78 c79 c80 c81 c82 c83 c84)
  (conj (@ops4_mi W L P0 P1 P2 P3 P4 P5 P6 P7 P8 P9 P10 P11 P12 P13 P14 P15 P16 P17 P18 P19 P20 P21 P22 P23 P24 P25 P26 P27 P28 P29 P30 P31 P32 P33 c0 c1 c2 c3 c4 c5 c6 c7 c8 c9 c10 c11 c12 c13 c14 c15 c16 c17 c18 c19 c20 c21 c22 c23 c24 c25 c26 c27 c28 c29 c30 c31 c32 c33 c34 c35 c36 c37 c38 c39 c40 c41 c42 c43 c44 c45 c46 c47 c48 c49 c50 c51 c52 c53 c54 c55 c56 c57 c58 c59 c60 c61 c62 c63 c64 c65 c66 c67 c68 c69 c70 c71 c72 c73 c74 c75 c76 c77 c78 c79 c80 c81 c82 c83 c84)
  (conj (@term4_mi W L P0 P1 P2 P3 P4 P5 P6 P7 P8 P9 P10 P11 P12 P13 P14 P15 P16 P17 P18 P19 P20 P21 P22 P23 P24 P25 P26 P27 P28 P29 P30 P31 P32 P33 c0 c1 c2 c3 c4 c5 c6 c7 c8 c9 c10 c11 c12 c13 c14 c15 c16 c17 c18 c19 c20 c21 c22 c23 c24 c25 c26 c27 c28 c29 c30 c31 c32 c33 c34 c35 c36 c37 c38 c39 c40 c41 c42 c43 c44 c45 c46 c47 c48 c49 c50 c51 c52 c53 c54 c55 c56 c57 c58 c59 c60 c61 c62 c63 c64 c65 c66 c67 c68 c69 c70 c71 c72 c73 c74 c75 c76 c77 c78 c79 c80 c81 c82 c83 c84)
  (conj (@ops5_mi W L P0 P1 P2 P3 P4 P5 P6 P7 P8 P9 P10 P11 P12 P13 P14 P15 P16 P17 P18 P19 P20 P21 P22 P23 P24 P25 P26 P27 P28 P29 P30 P31 P32 P33 c0 c1 c2 c3 c4 c5 c6 c7 c8 c9 c10 c11 c12 c13 c14 c15 c16 c17 c18 c19 c20 c21 c22 c23 c24 c25 c26 c27 c28 c29 c30 c31 c32 c33 c34 c35 c36 c37 c38 c39 c40 c41 c42 c43 c44 c45 c46 c47 c48 c49 c50 c51 c52 c53 c54 c55 c56 c57 c58 c59 c60 c61 c62 c63 c64 c65 c66 c67 c68 c69 c70 c71 c72 c73 c74 c75 c76 c77 c78 c79 c80 c81 c82 c83 c84)
  (conj (@expr_mi W L P0 P1 P2 P3 P4 P5 P6 P7 P8 P9 P10 P11 P12 P13 P14 P15 P16 P17 P18 P19 P20 P21 P22 P23 P24 P25 P26 P27 P28 P29 P30 P31 P32 P33 c0 c1 c2 c3 c4 c5 c6 c7 c8 c9 c10 c11 c12 c13 c14 c15 c16 c17 c18 c19 c20 c21 c22 c23 c24 c25 c26 c27 c28 c29 c30 c31 c32 c33 c34 c35 c36 c37 c38 c39 c40 c41 c42 c43 c44 c45 c46 c47 c48 c49 c50 c51 c52 c53 c54 c55 c56 c57 c58 c59 c60 c61 c62 c63 c64 c65 c66 c67 c68 c69 c70 c71 c72 c73 c74 c75 c76 c77 c78 c79 c80 c81 c82 c83 c84)
  (conj (@oexpr_mi W L P0 P1 P2 P3 P4 P5 P6 P7 P8 P9 P10 P11 P12 P13 P14 P15 P16 P17 P18 P19 P20 P21 P22 P23 P24 P25 P26 P27 P28 P29 P30 P31 P32 P33 c0 c1 c2 c3 c4 c5 c6 c7 c8 c9 c10 c11 c12 c13 c14 c15 c16 c17 c18 c19 c20 c21 c22 c23 c24 c25 c26 c27 c28 c29 c30 c31 c32 c33 c34 c35 c36 c37 c38 c39 c40 c41 c42 c43 c44 c45 c46 c47 c48 c49 c50 c51 c52 c53 c54 c55 c56 c57 c58 c59 c60 c61 c62 c63 c64 c65 c66 c67 c68 c69 c70 c71 c72 c73 c74 c75 c76 c77 c78 c79 c80 c81 c82 c83 c84)
  (conj (@ovalue_mi W L P0 P1 P2 P3 P4 P5 P6 P7 P8 P9 P10 P11 P12 P13 P14 P15 P16 P17 P18 P19 P20 P21 P22 P23 P24 P25 P26 P27 P28 P29 P30 P31 P32 P33 c0 c1 c2 c3 c4 c5 c6 c7 c8 c9 c10 c11 c12 c13 c14 c15 c16 c17 c18 c19 c20 c21 c22 c23 c24 c25 c26 c27 c28 c29 c30 c31 c32 c33 c34 c35 c36 c37 c38 c39 c40 c41 c42 c43 c44 c45 c46 c47 c48 c49 c50 c51 c52 c53 c54 c55 c56 c57 c58 c59 c60 c61 c62 c63 c64 c65 c66 c67 c68 c69 c70 c71 c72 c73 c74 c75 c76 c77 c78 c79 c80 c81 c82 c83 c84)
  (conj (@exprs_mi W L P0 P1 P2 P3 P4 P5 P6 P7 P8 P9 P10 P11 P12 P13 P14 P15 P16 P17 P18 P19 P20 P21 P22 P23 P24 P25 P26 P27 P28 P29 P30 P31 P32 P33 c0 c1 c2 c3 c4 c5 c6 c7 c8 c9 c10 c11 c12 c13 c14 c15 c16 c17 c18 c19 c20 c21 c22 c23 c24 c25 c26 c27 c28 c29 c30 c31 c32 c33 c34 c35 c36 c37 c38 c39 c40 c41 c42 c43 c44 c45 c46 c47 c48 c49 c50 c51 c52 c53 c54 c55 c56 c57 c58 c59 c60 c61 c62 c63 c64 c65 c66 c67 c68 c69 c70 c71 c72 c73 c74 c75 c76 c77 c78 c79 c80 c81 c82 c83 c84)
  (conj (@more_mi W L P0 P1 P2 P3 P4 P5 P6 P7 P8 P9 P10 P11 P12 P13 P14 P15 P16 P17 P18 P19 P20 P21 P22 P23 P24 P25 P26 P27 P28 P29 P30 P31 P32 P33 c0 c1 c2 c3 c4 c5 c6 c7 c8 c9 c10 c11 c12 c13 c14 c15 c16 c17 c18 c19 c20 c21 c22 c23 c24 c25 c26 c27 c28 c29 c30 c31 c32 c33 c34 c35 c36 c37 c38 c39 c40 c41 c42 c43 c44 c45 c46 c47 c48 c49 c50 c51 c52 c53 c54 c55 c56 c57 c58 c59 c60 c61 c62 c63 c64 c65 c66 c67 c68 c69 c70 c71 c72 c73 c74 c75 c76 c77 c78 c79 c80 c81 c82 c83 c84)
  (conj (@entries_mi W L P0 P1 P2 P3 P4 P5 P6 P7 P8 P9 P10 P11 P12 P13 P14 P15 P16 P17 P18 P19 P20 P21 P22 P23 P24 P25 P26 P27 P28 P29 P30 P31 P32 P33 c0 c1 c2 c3 c4 c5 c6 c7 c8 c9 c10 c11 c12 c13 c14 c15 c16 c17 c18 c19 c20 c21 c22 c23 c24 c25 c26 c27 c28 c29 c30 c31 c32 c33 c34 c35 c36 c37 c38 c39 c40 c41 c42 c43 c44 c45 c46 c47 c48 c49 c50 c51 c52 c53 c54 c55 c56 c57 c58 c59 c60 c61 c62 c63 c64 c65 c66 c67 c68 c69 c70 c71 c72 c73 c74 c75 c76 c77 c78 c79 c80 c81 c82 c83 c84)
  (conj (@mentries_mi W L P0 P1 P2 P3 P4 P5 P6 P7 P8 P9 P10 P11 P12 P13 P14 P15 P16 P17 P18 P19 P20 P21 P22 P23 P24 P25 P26 P27 P28 P29 P30 P31 P32 P33 c0 c1 c2 c3 c4 c5 c6 c7 c8 c9 c10 c11 c12 c13 c14 c15 c16 c17 c18 c19 c20 c21 c22 c23 c24 c25 c26 c27 c28 c29 c30 c31 c32 c33 c34 c35 c36 c37 c38 c39 c40 c41 c42 c43 c44 c45 c46 c47 c48 c49 c50 c51 c52 c53 c54 c55 c56 c57 c58 c59 c60 c61 c62 c63 c64 c65 c66 c67 c68 c69 c70 c71 c72 c73 c74 c75 c76 c77 c78 c79 c80 c81 c82 c83 c84)
  (conj (@body_mi W L P0 P1 P2 P3 P4 P5 P6 P7 P8 P9 P10 P11 P12 P13 P14 P15 P16 P17 P18 P19 P20 P21 P22 P23 P24 P25 P26 P27 P28 P29 P30 P31 P32 P33 c0 c1 c2 c3 c4 c5 c6 c7 c8 c9 c10 c11 c12 c13 c14 c15 c16 c17 c18 c19 c20 c21 c22 c23 c24 c25 c26 c27 c28 c29 c30 c31 c32 c33 c34 c35 c36 c37 c38 c39 c40 c41 c42 c43 c44 c45 c46 c47 c48 c49 c50 c51 c52 c53 c54 c55 c56 c57 c58 c59 c60 c61 c62 c63 c64 c65 c66 c67 c68 c69 c70 c71 c72 c73 c74 c75 c76 c77 c78 c79 c80 c81 c82 c83 c84)
  (conj (@elifs_mi W L P0 P1 P2 P3 P4 P5 P6 P7 P8 P9 P10 P11 P12 P13 P14 P15 P16 P17 P18 P19 P20 P21 P22 P23 P24 P25 P26 P27 P28 P29 P30 P31 P32 P33 c0 c1 c2 c3 c4 c5 c6 c7 c8 c9 c10 c11 c12 c13 c14 c15 c16 c17 c18 c19 c20 c21 c22 c23 c24 c25 c26 c27 c28 c29 c30 c31 c32 c33 c34 c35 c36 c37 c38 c39 c40 c41 c42 c43 c44 c45 c46 c47 c48 c49 c50 c51 c52 c53 c54 c55 c56 c57 c58 c59 c60 c61 c62 c63 c64 c65 c66 c67 c68 c69 c70 c71 c72 c73 c74 c75 c76 c77 c78 c79 c80 c81 c82 c83 c84)
  (conj (@else_mi W L P0 P1 P2 P3 P4 P5 P6 P7 P8 P9 P10 P11 P12 P13 P14 P15 P16 P17 P18 P19 P20 P21 P22 P23 P24 P25 P26 P27 P28 P29 P30 P31 P32 P33 c0 c1 c2 c3 c4 c5 c6 c7 c8 c9 c10 c11 c12 c13 c14 c15 c16 c17 c18 c19 c20 c21 c22 c23 c24 c25 c26 c27 c28 c29 c30 c31 c32 c33 c34 c35 c36 c37 c38 c39 c40 c41 c42 c43 c44 c45 c46 c47 c48 c49 c50 c51 c52 c53 c54 c55 c56 c57 c58 c59 c60 c61 c62 c63 c64 c65 c66 c67 c68 c69 c70 c71 c72 c73 c74 c75 c76 c77 c78 c79 c80 c81 c82 c83 c84)
  (conj (@cases_mi W L P0 P1 P2 P3 P4 P5 P6 P7 P8 P9 P10 P11 P12 P13 P14 P15 P16 P17 P18 P19 P20 P21 P22 P23 P24 P25 P26 P27 P28 P29 P30 P31 P32 P33 c0 c1 c2 c3 c4 c5 c6 c7 c8 c9 c10 c11 c12 c13 c14 c15 c16 c17 c18 c19 c20 c21 c22 c23 c24 c25 c26 c27 c28 c29 c30 c31 c32 c33 c34 c35 c36 c37 c38 c39 c40 c41 c42 c43 c44 c45 c46 c47 c48 c49 c50 c51 c52 c53 c54 c55 c56 c57 c58 c59 c60 c61 c62 c63 c64 c65 c66 c67 c68 c69 c70 c71 c72 c73 c74 c75 c76 c77 c78 c79 c80 c81 c82 c83 c84)
  (conj (@default_mi W L P0 P1 P2 P3 P4 P5 P6 P7 P8 P9 P10 P11 P12 P13 P14 P15 P16 P17 P18 P19 P20 P21 P22 P23 P24 P25 P26 P27 P28 P29 P30 P31 P32 P33 c0 c1 c2 c3 c4 c5 c6 c7 c8 c9 c10 c11 c12 c13 c14 c15 c16 c17 c18 c19 c20 c21 c22 c23 c24 c25 c26 c27 c28 c29 c30 c31 c32 c33 c34 c35 c36 c37 c38 c39 c40 c41 c42 c43 c44 c45 c46 c47 c48 c49 c50 c51 c52 c53 c54 c55 c56 c57 c58 c59 c60 c61 c62 c63 c64 c65 c66 c67 c68 c69 c70 c71 c72 c73 c74 c75 c76 c77 c78 c79 c80 c81 c82 c83 c84)
  (conj (@header_mi W L P0 P1 P2 P3 P4 P5 P6 P7 P8 P9 P10 P11 P12 P13 P14 P15 P16 P17 P18 P19 P20 P21 P22 P23 P24 P25 P26 P27 P28 P29 P30 P31 P32 P33 c0 c1 c2 c3 c4 c5 c6 c7 c8 c9 c10 c11 c12 c13 c14 c15 c16 c17 c18 c19 c20 c21 c22 c23 c24 c25 c26 c27 c28 c29 c30 c31 c32 c33 c34 c35 c36 c37 c38 c39 c40 c41 c42 c43 c44 c45 c46 c47 c48 c49 c50 c51 c52 c53 c54 c55 c56 c57 c58 c59 c60 c61 c62 c63 c64 c65 c66 c67 c68 c69 c70 c71 c72 c73 c74 c75 c76 c77 c78 c79 c80 c81 c82 c83 c84)
  (conj (@mheader_mi W L P0 P1 P2 P3 P4 P5 P6 P7 P8 P9 P10 P11 P12 P13 P14 P15 P16 P17 P18 P19 P20 P21 P22 P23 P24 P25 P26 P27 P28 P29 P30 P31 P32 P33 c0 c1 c2 c3 c4 c5 c6 c7 c8 c9 c10 c11 c12 c13 c14 c15 c16 c17 c18 c19 c20 c21 c22 c23 c24 c25 c26 c27 c28 c29 c30 c31 c32 c33 c34 c35 c36 c37 c38 c39 c40 c41 c42 c43 c44 c45 c46 c47 c48 c49 c50 c51 c52 c53 c54 c55 c56 c57 c58 c59 c60 c61 c62 c63 c64 c65 c66 c67 c68 c69 c70 c71 c72 c73 c74 c75 c76 c77 c78 c79 c80 c81 c82 c83 c84)
  (conj (@fnbody_mi W L P0 P1 P2 P3 P4 P5 P6 P7 P8 P9 P10 P11 P12 P13 P14 P15 P16 P17 P18 P19 P20 P21 P22 P23 P24 P25 P26 P27 P28 P29 P30 P31 P32 P33 c0 c1 c2 c3 c4 c5 c6 c7 c8 c9 c10 c11 c12 c13 c14 c15 c16 c17 c18 c19 c20 c21 c22 c23 c24 c25 c26 c27 c28 c29 c30 c31 c32 c33 c34 c35 c36 c37 c38 c39 c40 c41 c42 c43 c44 c45 c46 c47 c48 c49 c50 c51 c52 c53 c54 c55 c56 c57 c58 c59 c60 c61 c62 c63 c64 c65 c66 c67 c68 c69 c70 c71 c72 c73 c74 c75 c76 c77 c78 c79 c80 c81 c82 c83 c84)
  (conj (@clsname_mi W L P27 c66 c67)
  (conj (@newargs_mi W L P0 P1 P2 P3 P4 P5 P6 P7 P8 P9 P10 P11 P12 P13 P14 P15 P16 P17 P18 P19 P20 P21 P22 P23 P24 P25 P26 P27 P28 P29 P30 P31 P32 P33 c0 c1 c2 c3 c4 c5 c6 c7 c8 c9 c10 c11 c12 c13 c14 c15 c16 c17 c18 c19 c20 c21 c22 c23 c24 c25 c26 c27 c28 c29 c30 c31 c32 c33 c34 c35 c36 c37 c38 c39 c40 c41 c42 c43 c44 c45 c46 c47 c48 c49 c50 c51 c52 c53 c54 c55 c56 c57 c58 c59 c60 c61 c62 c63 c64 c65 c66 c67 c68 c69 c70 c71 c72 c73 c74 c75 c76 c77 c78 c79 c80 c81 c82 c83 c84)
  (conj (@methods_mi W L P0 P1 P2 P3 P4 P5 P6 P7 P8 P9 P10 P11 P12 P13 P14 P15 P16 P17 P18 P19 P20 P21 P22 P23 P24 P25 P26 P27 P28 P29 P30 P31 P32 P33 c0 c1 c2 c3 c4 c5 c6 c7 c8 c9 c10 c11 c12 c13 c14 c15 c16 c17 c18 c19 c20 c21 c22 c23 c24 c25 c26 c27 c28 c29 c30 c31 c32 c33 c34 c35 c36 c37 c38 c39 c40 c41 c42 c43 c44 c45 c46 c47 c48 c49 c50 c51 c52 c53 c54 c55 c56 c57 c58 c59 c60 c61 c62 c63 c64 c65 c66 c67 c68 c69 c70 c71 c72 c73 c74 c75 c76 c77 c78 c79 c80 c81 c82 c83 c84)
  (conj (@stmt_mi W L P0 P1 P2 P3 P4 P5 P6 P7 P8 P9 P10 P11 P12 P13 P14 P15 P16 P17 P18 P19 P20 P21 P22 P23 P24 P25 P26 P27 P28 P29 P30 P31 P32 P33 c0 c1 c2 c3 c4 c5 c6 c7 c8 c9 c10 c11 c12 c13 c14 c15 c16 c17 c18 c19 c20 c21 c22 c23 c24 c25 c26 c27 c28 c29 c30 c31 c32 c33 c34 c35 c36 c37 c38 c39 c40 c41 c42 c43 c44 c45 c46 c47 c48 c49 c50 c51 c52 c53 c54 c55 c56 c57 c58 c59 c60 c61 c62 c63 c64 c65 c66 c67 c68 c69 c70 c71 c72 c73 c74 c75 c76 c77 c78 c79 c80 c81 c82 c83 c84)
  (conj (@rest_mi W L P0 P1 P2 P3 P4 P5 P6 P7 P8 P9 P10 P11 P12 P13 P14 P15 P16 P17 P18 P19 P20 P21 P22 P23 P24 P25 P26 P27 P28 P29 P30 P31 P32 P33 c0 c1 c2 c3 c4 c5 c6 c7 c8 c9 c10 c11 c12 c13 c14 c15 c16 c17 c18 c19 c20 c21 c22 c23 c24 c25 c26 c27 c28 c29 c30 c31 c32 c33 c34 c35 c36 c37 c38 c39 c40 c41 c42 c43 c44 c45 c46 c47 c48 c49 c50 c51 c52 c53 c54 c55 c56 c57 c58 c59 c60 c61 c62 c63 c64 c65 c66 c67 c68 c69 c70 c71 c72 c73 c74 c75 c76 c77 c78 c79 c80 c81 c82 c83 c84)
  (conj (@doc_mi W L P0 P1 P2 P3 P4 P5 P6 P7 P8 P9 P10 P11 P12 P13 P14 P15 P16 P17 P18 P19 P20 P21 P22 P23 P24 P25 P26 P27 P28 P29 P30 P31 P32 P33 c0 c1 c2 c3 c4 c5 c6 c7 c8 c9 c10 c11 c12 c13 c14 c15 c16 c17 c18 c19 c20 c21 c22 c23 c24 c25 c26 c27 c28 c29 c30 c31 c32 c33 c34 c35 c36 c37 c38 c39 c40 c41 c42 c43 c44 c45 c46 c47 c48 c49 c50 c51 c52 c53 c54 c55 c56 c57 c58 c59 c60 c61 c62 c63 c64 c65 c66 c67 c68 c69 c70 c71 c72 c73 c74 c75 c76 c77 c78 c79 c80 c81 c82 c83 c84)
  (@odoc_mi W L P0 P1 P2 P3 P4 P5 P6 P7 P8 P9 P10 P11 P12 P13 P14 P15 P16 P17 P18 P19 P20 P21 P22 P23 P24 P25 P26 P27 P28 P29 P30 P31 P32 P33 c0 c1 c2 c3 c4 c5 c6 c7 c8 c9 c10 c11 c12 c13 c14 c15 c16 c17 c18 c19 c20 c21 c22 c23 c24 c25 c26 c27 c28 c29 c30 c31 c32 c33 c34 c35 c36 c37 c38 c39 c40 c41 c42 c43 c44 c45 c46 c47 c48 c49 c50 c51 c52 c53 c54 c55 c56 c57 c58 c59 c60 c61 c62 c63 c64 c65 c66 c67 c68 c69 c70 c71 c72 c73 c74 c75 c76 c77 c78 c79 c80 c81 c82 c83 c84))))))))))))))))))))))))))))))))).

Section Parse.
Context {W : Type}.
Variable L : qlib W.
Notation St := (est nat value (@rest W)).
Notation env := (cenv q_dst).
Notation sem := (@sem W).
Infix ">>" := seq (at level 60, right associativity).
Notation B := (ok env (both L)).
Notation BS := (okS env (both L)).
Notation BR := (okR env (both L)).
Notation M := (ok env (pushes L)).
Notation MS := (okS env (pushes L)).
Notation MR := (okR env (pushes L)).

(** ** Instances *)
Definition b_nil := okS_nil env (both L) nop (both_nil L).
Definition b_cons := okS_cons env (both L) seq (both_app L).
Definition b_bang := okS_bang env (both L).
Definition b_tok := okS_tok env (both L).
Definition b_last := okS_last env (both L).
Definition b_tok1 := ok_tok env (both L) nop (both_nil L).
Definition b_and := ok_and env (both L).
Definition b_or := ok_or env (both L).
Definition b_act := ok_act env (both L) seq (both_app L).
Definition b_acttok := ok_act_tok env (both L).
Definition b_var := ok_var env (both L).
Definition b_named := ok_named env (both L).
Definition b_end := okR_end env (both L) nop (both_nil L).
Definition b_more := okR_more env (both L) seq (both_app L).
Definition b_rep0 := ok_rep0 env (both L).
Definition b_opt := ok_opt env (both L).
Definition b_optno := ok_opt_no env (both L) nop (both_nil L).
Definition b_list := ok_list env (both L) seq (both_app L).
Definition b_listno := ok_list_no env (both L) nop (both_nil L).
Definition m_nil := okS_nil env (pushes L) [] (pushes_nil L).
Definition m_cons := okS_cons env (pushes L) (@app value) (pushes_app L).
Definition m_bang := okS_bang env (pushes L).
Definition m_tok := okS_tok env (pushes L).
Definition m_last := okS_last env (pushes L).
Definition m_tok1 := ok_tok env (pushes L) [] (pushes_nil L).
Definition m_and_ := ok_and env (pushes L).
Definition m_act := ok_act env (pushes L) (@app value) (pushes_app L).
Definition m_named := ok_named env (pushes L).
Definition m_end := okR_end env (pushes L) [] (pushes_nil L).
Definition m_more := okR_more env (pushes L) (@app value) (pushes_app L).
Definition m_rep0 := ok_rep0 env (pushes L).
Definition m_opt := ok_opt env (pushes L).
Definition m_optno := ok_opt_no env (pushes L) [] (pushes_nil L).
Definition m_list := ok_list env (pushes L) (@app value) (pushes_app L).
Definition m_listno := ok_list_no env (pushes L) [] (pushes_nil L).

Definition same (c c' : sem) : Prop := forall ev k p x, c ev k p x = c' ev k p x.
Lemma b_ext : forall g ts rest l c c', B g ts rest l c -> same c' c -> B g ts rest l c'.
Proof. intros g ts rest l c c' (tr & P & H) E. exists tr. split; [exact P|]. eapply both_ext; eassumption. Qed.
Lemma bs_ext : forall g ts rest c c', BS g ts rest c -> same c' c -> BS g ts rest c'.
Proof. intros g ts rest c c' (tr & P & H) E. exists tr. split; [exact P|]. eapply both_ext; eassumption. Qed.
Lemma same_refl : forall c, same c c.
Proof. intros c ev k p x. reflexivity. Qed.
Lemma same_sym : forall c c', same c c' -> same c' c.
Proof. intros c c' H ev k p x. symmetry. apply H. Qed.
Lemma same_trans : forall a b c, same a b -> same b c -> same a c.
Proof. intros a b c H1 H2 ev k p x. rewrite H1. apply H2. Qed.
Lemma same_seq : forall a b a' b', same a a' -> same b b' -> same (a >> b) (a' >> b').
Proof. intros a b a' b' H1 H2 ev k p x. unfold seq. apply bind_ext; [apply H1|intros; apply H2]. Qed.
(** muted, an expression does nothing *)
Lemma m_quiet : forall g ts rest l c, B g ts rest l c -> M g ts rest l [].
Proof. intros g ts rest l c (tr & P & H). exists tr. split; [exact P|]. apply pushes_hush. apply H. Qed.
(** ... so that /_code pushes its tokens only *)
Lemma m_code : forall g ts rest l c, B g ts rest l c -> M (GAct g k__code) ts rest l [code ts].
Proof. intros g ts rest l c H. apply (m_act g k__code ts rest l [] [code ts]); [eapply m_quiet; exact H|apply pushes_code]. Qed.
Lemma m_arity : forall g ts rest l vs, M g ts rest l vs -> M (GAct g k__ARITY) ts rest l (vs ++ [VInt l]).
Proof. intros g ts rest l vs H. apply (m_act g k__ARITY ts rest l vs [VInt l]); [exact H|apply pushes_arity]. Qed.

(** ** Muted until the last element *)
Definition after (tr : list (@PegSpec.ev bytes Empty_set)) (lc : list value * sem) : Prop :=
  exists tr1 ts n tr2, tr = tr1 ++ EvAct m_unmute ts n :: tr2 /\ pushes L tr1 (fst lc) /\ both L tr2 (snd lc).
Definition ME (gs : list G) (ts rest : list token) (l : list value) (c : sem) : Prop := okS env after gs ts rest (l, c).
Lemma e_cons : forall g gs ts1 ts2 rest n l1 l2 c, g <> GNil -> M g ts1 (ts2 ++ rest) n l1 -> ME gs ts2 rest l2 c -> ME (g :: gs) (ts1 ++ ts2) rest (l1 ++ l2) c.
Proof.
  intros g gs ts1 ts2 rest n l1 l2 c Hg (tr1 & P1 & R1) (tr2 & P2 & a & ts & m & b & -> & Ha & Hb). exists (tr1 ++ (a ++ EvAct m_unmute ts m :: b)). split; [eapply pr_seq_cons; eassumption|].
  exists (tr1 ++ a), ts, m, b. split; [rewrite app_assoc; reflexivity|]. split; [apply pushes_app; assumption|exact Hb].
Qed.
Lemma e_tok : forall t k gs ts rest l c, tkind t = k -> ME gs ts rest l c -> ME (GTok k :: gs) (t :: ts) rest l c.
Proof. intros. apply okS_tok; assumption. Qed.
Lemma e_bang : forall gs ts rest l c, ME gs ts rest l c -> ME (GNil :: gs) ts rest l c.
Proof. intros. apply okS_bang; assumption. Qed.
Lemma e_last : forall g a ts rest n l c, M g ts rest n l -> both L [EvAct a ts n] c -> ME [GAct (GAct g m_unmute) a] ts rest l c.
Proof.
  intros g a ts rest n l c (tr & P & R) H. apply (okS_last env after (GAct (GAct g m_unmute) a) ts rest n (l, c)); [discriminate|].
  exists ((tr ++ [EvAct m_unmute ts n]) ++ [EvAct a ts n]). split; [apply pr_act; apply pr_act; exact P|]. exists tr, ts, n, [EvAct a ts n]. split; [rewrite <- app_assoc; reflexivity|]. split; assumption.
Qed.
Lemma e_last0 : forall g ts rest n l, M g ts rest n l -> ME [GAct g m_unmute] ts rest l nop.
Proof.
  intros g ts rest n l (tr & P & R). apply (okS_last env after (GAct g m_unmute) ts rest n (l, nop)); [discriminate|].
  exists (tr ++ [EvAct m_unmute ts n]). split; [apply pr_act; exact P|]. exists tr, ts, n, []. split; [reflexivity|]. split; [exact R|apply both_nil].
Qed.
Lemma mute_in : forall t k gs ts rest l c, tkind t = k -> ME gs ts rest l c -> BS (GAct (GTok k) m_mute :: gs) (t :: ts) rest (put_all l >> c).
Proof.
  intros t k gs ts rest l c Ht (tr & P & a & ts' & m & b & -> & Ha & Hb). cbn [fst snd] in Ha, Hb.
  exists ([EvAct m_mute [t] (-1)] ++ (a ++ EvAct m_unmute ts' m :: b)). split.
  - apply (pr_seq_cons env (GAct (GTok k) m_mute) gs [t] ts rest (-1)); [discriminate| |exact P]. apply (pr_act env (GTok k) m_mute [t] (ts ++ rest) (-1) []). apply pr_tok. exact Ht.
  - replace ([EvAct m_mute [t] (-1)] ++ a ++ EvAct m_unmute ts' m :: b) with ((EvAct m_mute [t] (-1) :: a ++ [EvAct m_unmute ts' m]) ++ b) by (cbn; rewrite <- app_assoc; reflexivity).
    apply both_app; [apply both_muted; exact Ha|exact Hb].
Qed.

(** ** What may follow *)
Definition oeqb (a b : option Z) : bool := match a, b with Some x, Some y => x =? y | None, None => true | _, _ => false end.
Lemma oeqb_eq : forall a b, oeqb a b = true -> a = b.
Proof. intros [x|] [y|] H; try discriminate H; [|reflexivity]. apply Z.eqb_eq in H. subst. reflexivity. Qed.
Definition hin (F : list (option Z)) (rest : list token) : Prop := existsb (oeqb (hdk rest)) F = true.
Lemma hin_app : forall F F' rest, hin F rest -> hin (F ++ F') rest.
Proof. intros F F' rest H. unfold hin. rewrite existsb_app, H. reflexivity. Qed.
Lemma hin_in : forall F rest, hin F rest <-> In (hdk rest) F.
Proof.
  intros F rest. unfold hin. rewrite existsb_exists. split.
  - intros (x & Hx & E). apply oeqb_eq in E. rewrite E. exact Hx.
  - intro H. exists (hdk rest). split; [exact H|]. destruct (hdk rest); [apply Z.eqb_refl|reflexivity].
Qed.
Lemma rej_hin : forall n g F rest, forallb (rej env n g) F = true -> hin F rest -> peg env g rest OFail [].
Proof. intros n g F rest HF H. apply (rej_sound env n). rewrite forallb_forall in HF. apply HF. apply hin_in. exact H. Qed.
Lemma rej_tok : forall n g k t r, tkind t = k -> rej env n g (Some k) = true -> peg env g (t :: r) OFail [].
Proof. intros n g k t r Ht H. apply (rej_sound env n). cbn [hdk]. rewrite Ht. exact H. Qed.
(** after a document, a statement, an expression, ... *)
Definition FD : list (option Z) := [None; Some RBRACE; Some CASE; Some DEFAULT].
Definition FX : list (option Z) := FD ++ [Some SEMI].
Definition FO : list (option Z) := FX ++ [Some RBRACK; Some COLON].
Definition FS : list (option Z) := FX ++ [Some LBRACE].
Definition FE : list (option Z) := FS ++ [Some RPAREN; Some RBRACK; Some COMMA; Some COLON; Some ELLIPSIS].
Definition F5 : list (option Z) := FE ++ [Some OROR].
Definition F4 : list (option Z) := F5 ++ [Some ANDAND].
Definition F3 : list (option Z) := F4 ++ [Some 60; Some 62; Some 148; Some 150; Some 151; Some 149].
Definition F2 : list (option Z) := F3 ++ [Some 43; Some 45].
Definition F1 : list (option Z) := F2 ++ [Some 42; Some 47; Some 37].
Lemma hin_tok : forall F t r k, tkind t = k -> existsb (oeqb (Some k)) F = true -> hin F (t :: r).
Proof. intros F t r k Ht H. unfold hin. cbn [hdk]. rewrite Ht. exact H. Qed.
Lemma hin_sub : forall F F' rest, forallb (fun x => existsb (oeqb x) F') F = true -> hin F rest -> hin F' rest.
Proof. intros F F' rest HF H. rewrite forallb_forall in HF. apply HF. apply hin_in. exact H. Qed.

(** how an expression starts *)
Definition first_kinds : list Z := [INT; FLOAT; STRING; CHAR; IDENT; LPAREN; FN; LBRACK; IF; SWITCH; FOR; NEW; CLASS; RECOVER; MAIN; LBRACE; BANG; MINUS; PLUS].
Definition nasg (r : list token) : Prop := match r with [] => True | t :: _ => ~ In (tkind t) after_name end.
Definition headok (ts : list token) : Prop := match ts with [] => False | t :: r => In (tkind t) first_kinds /\ (tkind t = IDENT -> nasg r) end.
Lemma headok_app : forall ts r, headok ts -> nasg r -> headok (ts ++ r).
Proof. intros [|t ts] r H Hr; [destruct H|]. destruct H as (H1 & H2). split; [exact H1|]. intro E. specialize (H2 E). destruct ts as [|t2 ts]; [exact Hr|exact H2]. Qed.
Lemma headok_tok : forall t r k, tkind t = k -> existsb (Z.eqb k) first_kinds = true -> (k =? IDENT) = false -> headok (t :: r).
Proof.
  intros t r k Ht H1 H2. split.
  - rewrite Ht. apply existsb_exists in H1. destruct H1 as (x & Hx & E). apply Z.eqb_eq in E. subst x. exact Hx.
  - intro E. rewrite E in Ht. subst k. discriminate H2.
Qed.
Lemma nasg_tok : forall t r k, tkind t = k -> existsb (Z.eqb k) after_name = false -> nasg (t :: r).
Proof. intros t r k Ht H. cbn [nasg]. rewrite Ht. intro Hi. assert (existsb (Z.eqb k) after_name = true); [|congruence]. apply existsb_exists. exists k. split; [exact Hi|apply Z.eqb_refl]. Qed.
Lemma headok_ne : forall ts, headok ts -> ts <> [].
Proof. intros [|t ts] H; [destruct H|discriminate]. Qed.
Lemma headok_code : forall ts, headok ts -> code ts = VCode ts.
Proof. intros [|t ts] H; [destruct H|reflexivity]. Qed.

(** ** Alternatives *)
Lemma alt_sel : forall gs i g ts rest k l c, nth_error gs i = Some g -> hdk ts = Some k -> forallb (fun g1 => rej env 1 g1 (Some k)) (firstn i gs) = true ->
  B g ts rest l c -> B (GOr gs) ts rest (Z.of_nat (length gs)) c.
Proof.
  intros gs i g ts rest k l c Hn Hk Hr H. destruct (nth_error_split _ _ Hn) as (g1 & g2 & E & El). subst gs i.
  rewrite firstn_app, Nat.sub_diag, firstn_all in Hr. cbn in Hr. rewrite app_nil_r in Hr.
  apply (b_or g1 g g2 ts rest l c); [|exact H]. apply Forall_forall. intros x Hx. rewrite forallb_forall in Hr. apply (rej_sound env 1).
  assert (hdk (ts ++ rest) = Some k) as -> by (destruct ts; [discriminate Hk|exact Hk]). apply Hr. exact Hx.
Qed.
Lemma factor_alt : forall i gs g ts rest k l c, d_factor = GOr gs -> nth_error gs i = Some g -> hdk ts = Some k -> forallb (fun g1 => rej env 1 g1 (Some k)) (firstn i gs) = true ->
  B g ts rest l c -> B gfactor ts rest (-1) c.
Proof. intros i gs g ts rest k l c E Hn Hk Hr H. eapply b_var; [reflexivity|]. rewrite E. eapply alt_sel; eassumption. Qed.
End Parse.
