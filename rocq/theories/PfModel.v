(* Model of geometry/Distance.hpp 14-222, 815-1110, 1912-2314 and 3593-3789 (pFpx_...): the Jacobians of the
   deformation measures of barrier contacts, and of the distances of 227-234, 1171-1176, 2439-2444, 3987-3992.
   As in DgModel the templates take the scalar type, an assignment is a let and a repeated assignment shadows.
   result[i][j] of a 12 x 9 (9 x 4) matrix is at 9 i + j (4 i + j) of the list.
   Simplifications: exact real arithmetic once T is R; (T)-0.5 is written -1 / 2. *)
From Coq Require Import ZArith Reals List.
From Verif Require Import FricModel DgModel.
Import ListNotations.

Section Template.
Context {T : Type} (o : ops T) (root : T -> T).
Declare Scope scalar_scope.
Local Open Scope scalar_scope.
Local Notation "# n" := (cst o n%Z) (at level 1, format "# n") : scalar_scope.
Local Notation "x + y" := (plus o x y) : scalar_scope.
Local Notation "x - y" := (sub o x y) : scalar_scope.
Local Notation "x * y" := (times o x y) : scalar_scope.
Local Notation "- x" := (neg o x) : scalar_scope.
Local Notation "x / y" := (quot o x y) : scalar_scope.
(* Distance.hpp 14-172 *)
Definition detail_pppV0V1 (d x11 x12 x13 x21 x22 x23 x31 x32 x33 x41 x42 x43 : T) : list T :=
  let t8 := #1 / d in
  let t49 := - x21 + x11 in
  let t82 := - x22 + x12 in
  let t81 := - x23 + x13 in
  let t24 := - x31 + x11 in
  let t25 := - x32 + x12 in
  let t26 := - x33 + x13 in
  let t27 := - x41 + x21 in
  let t28 := - x42 + x22 in
  let t29 := - x43 + x23 in
  let t46 := t24 * t28 + - (t25 * t27) in
  let t47 := t24 * t29 + - (t26 * t27) in
  let t48 := t25 * t29 + - (t26 * t28) in
  let t49 := #1 / root (t49 * t49 + t82 * t82 + t81 * t81) in
  let t67 := t8 * (x11 * #2 + - (x21 * #2)) * t49 / #2 in
  let t68 := t8 * (x12 * #2 + - (x22 * #2)) * t49 / #2 in
  let t69 := t8 * (x13 * #2 + - (x23 * #2)) * t49 / #2 in
  let t49 := #1 / root (t46 * t46 + t47 * t47 + t48 * t48) in
  let t78 := (t25 * t46 * #2 + t26 * t47 * #2) * t49 / #2 in
  let t8 := (t24 * t47 * #2 + t25 * t48 * #2) * t49 / #2 in
  let t25 := (t28 * t46 * #2 + t29 * t47 * #2) * t49 / #2 in
  let t81 := (t27 * t47 * #2 + t28 * t48 * #2) * t49 / #2 in
  let t82 := (t24 * t46 * #2 + - (t26 * t48 * #2)) * t49 / #2 in
  let t49 := (t27 * t46 * #2 + - (t29 * t48 * #2)) * t49 / #2 in
  let r0_0 := #0 in
  let r0_1 := #0 in
  let r0_2 := #0 in
  let r0_3 := #0 in
  let r0_4 := t25 in
  let r0_5 := #0 in
  let r0_6 := #0 in
  let r0_7 := #0 in
  let r0_8 := t67 in
  let r1_0 := #0 in
  let r1_1 := #0 in
  let r1_2 := #0 in
  let r1_3 := #0 in
  let r1_4 := - t49 in
  let r1_5 := #0 in
  let r1_6 := #0 in
  let r1_7 := #0 in
  let r1_8 := t68 in
  let r2_0 := #0 in
  let r2_1 := #0 in
  let r2_2 := #0 in
  let r2_3 := #0 in
  let r2_4 := - t81 in
  let r2_5 := #0 in
  let r2_6 := #0 in
  let r2_7 := #0 in
  let r2_8 := t69 in
  let r3_0 := #0 in
  let r3_1 := #0 in
  let r3_2 := #0 in
  let r3_3 := #0 in
  let r3_4 := - t78 in
  let r3_5 := #0 in
  let r3_6 := #0 in
  let r3_7 := #0 in
  let r3_8 := - t67 in
  let r4_0 := #0 in
  let r4_1 := #0 in
  let r4_2 := #0 in
  let r4_3 := #0 in
  let r4_4 := t82 in
  let r4_5 := #0 in
  let r4_6 := #0 in
  let r4_7 := #0 in
  let r4_8 := - t68 in
  let r5_0 := #0 in
  let r5_1 := #0 in
  let r5_2 := #0 in
  let r5_3 := #0 in
  let r5_4 := t8 in
  let r5_5 := #0 in
  let r5_6 := #0 in
  let r5_7 := #0 in
  let r5_8 := - t69 in
  let r6_0 := #0 in
  let r6_1 := #0 in
  let r6_2 := #0 in
  let r6_3 := #0 in
  let r6_4 := - t25 in
  let r6_5 := #0 in
  let r6_6 := #0 in
  let r6_7 := #0 in
  let r6_8 := #0 in
  let r7_0 := #0 in
  let r7_1 := #0 in
  let r7_2 := #0 in
  let r7_3 := #0 in
  let r7_4 := t49 in
  let r7_5 := #0 in
  let r7_6 := #0 in
  let r7_7 := #0 in
  let r7_8 := #0 in
  let r8_0 := #0 in
  let r8_1 := #0 in
  let r8_2 := #0 in
  let r8_3 := #0 in
  let r8_4 := t81 in
  let r8_5 := #0 in
  let r8_6 := #0 in
  let r8_7 := #0 in
  let r8_8 := #0 in
  let r9_0 := #0 in
  let r9_1 := #0 in
  let r9_2 := #0 in
  let r9_3 := #0 in
  let r9_4 := t78 in
  let r9_5 := #0 in
  let r9_6 := #0 in
  let r9_7 := #0 in
  let r9_8 := #0 in
  let r10_0 := #0 in
  let r10_1 := #0 in
  let r10_2 := #0 in
  let r10_3 := #0 in
  let r10_4 := - t82 in
  let r10_5 := #0 in
  let r10_6 := #0 in
  let r10_7 := #0 in
  let r10_8 := #0 in
  let r11_0 := #0 in
  let r11_1 := #0 in
  let r11_2 := #0 in
  let r11_3 := #0 in
  let r11_4 := - t8 in
  let r11_5 := #0 in
  let r11_6 := #0 in
  let r11_7 := #0 in
  let r11_8 := #0 in
  [r0_0; r0_1; r0_2; r0_3; r0_4; r0_5; r0_6; r0_7; r0_8;
   r1_0; r1_1; r1_2; r1_3; r1_4; r1_5; r1_6; r1_7; r1_8;
   r2_0; r2_1; r2_2; r2_3; r2_4; r2_5; r2_6; r2_7; r2_8;
   r3_0; r3_1; r3_2; r3_3; r3_4; r3_5; r3_6; r3_7; r3_8;
   r4_0; r4_1; r4_2; r4_3; r4_4; r4_5; r4_6; r4_7; r4_8;
   r5_0; r5_1; r5_2; r5_3; r5_4; r5_5; r5_6; r5_7; r5_8;
   r6_0; r6_1; r6_2; r6_3; r6_4; r6_5; r6_6; r6_7; r6_8;
   r7_0; r7_1; r7_2; r7_3; r7_4; r7_5; r7_6; r7_7; r7_8;
   r8_0; r8_1; r8_2; r8_3; r8_4; r8_5; r8_6; r8_7; r8_8;
   r9_0; r9_1; r9_2; r9_3; r9_4; r9_5; r9_6; r9_7; r9_8;
   r10_0; r10_1; r10_2; r10_3; r10_4; r10_5; r10_6; r10_7; r10_8;
   r11_0; r11_1; r11_2; r11_3; r11_4; r11_5; r11_6; r11_7; r11_8].
(* Distance.hpp 174-200 *)
Definition detail_pp2 (d x11 x12 x13 x21 x22 x23 : T) : list T :=
  let t8 := #1 / d in
  let t25 := - x21 + x11 in
  let t26 := - x22 + x12 in
  let t27 := - x23 + x13 in
  let t25 := #1 / root (t25 * t25 + t26 * t26 + t27 * t27) in
  let t26 := t8 * (x11 * #2 + - (x21 * #2)) * t25 / #2 in
  let t27 := t8 * (x12 * #2 + - (x22 * #2)) * t25 / #2 in
  let t25 := t8 * (x13 * #2 + - (x23 * #2)) * t25 / #2 in
  let r0_0 := t26 in
  let r1_0 := t27 in
  let r2_0 := t25 in
  let r3_0 := - t26 in
  let r4_0 := - t27 in
  let r5_0 := - t25 in
  [r0_0; r1_0; r2_0; r3_0; r4_0; r5_0].
(* Distance.hpp 815-998 *)
Definition detail_ppeV0V1 (d x11 x12 x13 x21 x22 x23 x31 x32 x33 x41 x42 x43 : T) : list T :=
  let t8 := #1 / d in
  let t21 := - x21 + x11 in
  let t22 := - x22 + x12 in
  let t23 := - x23 + x13 in
  let t24 := - x31 + x11 in
  let t25 := - x32 + x12 in
  let t26 := - x33 + x13 in
  let t27 := - x41 + x11 in
  let t28 := - x31 + x21 in
  let t29 := - x42 + x12 in
  let t30 := - x32 + x22 in
  let t31 := - x43 + x13 in
  let t32 := - x33 + x23 in
  let t58 := #1 / (t28 * t28 + t30 * t30 + t32 * t32) in
  let t60 := t21 * t25 + - (t22 * t24) in
  let t61 := t21 * t26 + - (t23 * t24) in
  let t62 := t22 * t26 + - (t23 * t25) in
  let t63 := t27 * t30 + - (t28 * t29) in
  let t64 := t27 * t32 + - (t28 * t31) in
  let t65 := t29 * t32 + - (t30 * t31) in
  let t59 := t58 * t58 in
  let t92 := t60 * t60 + t61 * t61 + t62 * t62 in
  let t94 := #1 / root (t63 * t63 + t64 * t64 + t65 * t65) in
  let t97 := (x21 * #2 + - (x31 * #2)) * t59 * t92 in
  let t98 := (x22 * #2 + - (x32 * #2)) * t59 * t92 in
  let t99 := (x23 * #2 + - (x33 * #2)) * t59 * t92 in
  let t96 := #1 / root (t58 * t92) in
  let t102 := (t29 * t63 * #2 + t31 * t64 * #2) * t94 / #2 in
  let t103 := (t30 * t63 * #2 + t32 * t64 * #2) * t94 / #2 in
  let t104 := (t27 * t64 * #2 + t29 * t65 * #2) * t94 / #2 in
  let t64 := (t28 * t64 * #2 + t30 * t65 * #2) * t94 / #2 in
  let t29 := (t27 * t63 * #2 + - (t31 * t65 * #2)) * t94 / #2 in
  let t59 := (t28 * t63 * #2 + - (t32 * t65 * #2)) * t94 / #2 in
  let r0_0 := #0 in
  let r0_1 := #0 in
  let r0_2 := #0 in
  let r0_3 := #0 in
  let r0_4 := t103 in
  let r0_5 := #0 in
  let r0_6 := #0 in
  let r0_7 := #0 in
  let t92 := t8 * t58 * t96 in
  let r0_8 := t92 * (t30 * t60 * #2 + t32 * t61 * #2) / #2 in
  let r1_0 := #0 in
  let r1_1 := #0 in
  let r1_2 := #0 in
  let r1_3 := #0 in
  let r1_4 := - t59 in
  let r1_5 := #0 in
  let r1_6 := #0 in
  let r1_7 := #0 in
  let r1_8 := t92 * (t28 * t60 * #2 - t32 * t62 * #2) * (#(-1) / #2) in
  let r2_0 := #0 in
  let r2_1 := #0 in
  let r2_2 := #0 in
  let r2_3 := #0 in
  let r2_4 := - t64 in
  let r2_5 := #0 in
  let r2_6 := #0 in
  let r2_7 := #0 in
  let r2_8 := t92 * (t28 * t61 * #2 + t30 * t62 * #2) * (#(-1) / #2) in
  let r3_0 := #0 in
  let r3_1 := #0 in
  let r3_2 := #0 in
  let r3_3 := #0 in
  let r3_4 := - t102 in
  let r3_5 := #0 in
  let r3_6 := #0 in
  let r3_7 := #0 in
  let t92 := t8 * t96 in
  let r3_8 := t92 * (t97 + t58 * (t25 * t60 * #2 + t26 * t61 * #2)) * (#(-1) / #2) in
  let r4_0 := #0 in
  let r4_1 := #0 in
  let r4_2 := #0 in
  let r4_3 := #0 in
  let r4_4 := t29 in
  let r4_5 := #0 in
  let r4_6 := #0 in
  let r4_7 := #0 in
  let r4_8 := t92 * (t98 - t58 * (t24 * t60 * #2 - t26 * t62 * #2)) * (#(-1) / #2) in
  let r5_0 := #0 in
  let r5_1 := #0 in
  let r5_2 := #0 in
  let r5_3 := #0 in
  let r5_4 := t104 in
  let r5_5 := #0 in
  let r5_6 := #0 in
  let r5_7 := #0 in
  let r5_8 := t92 * (t99 - t58 * (t24 * t61 * #2 + t25 * t62 * #2)) * (#(-1) / #2) in
  let r6_0 := #0 in
  let r6_1 := #0 in
  let r6_2 := #0 in
  let r6_3 := #0 in
  let r6_4 := t102 in
  let r6_5 := #0 in
  let r6_6 := #0 in
  let r6_7 := #0 in
  let r6_8 := t92 * (t97 + t58 * (t22 * t60 * #2 + t23 * t61 * #2)) / #2 in
  let r7_0 := #0 in
  let r7_1 := #0 in
  let r7_2 := #0 in
  let r7_3 := #0 in
  let r7_4 := - t29 in
  let r7_5 := #0 in
  let r7_6 := #0 in
  let r7_7 := #0 in
  let r7_8 := t92 * (t98 - t58 * (t21 * t60 * #2 - t23 * t62 * #2)) / #2 in
  let r8_0 := #0 in
  let r8_1 := #0 in
  let r8_2 := #0 in
  let r8_3 := #0 in
  let r8_4 := - t104 in
  let r8_5 := #0 in
  let r8_6 := #0 in
  let r8_7 := #0 in
  let r8_8 := t92 * (t99 - t58 * (t21 * t61 * #2 + t22 * t62 * #2)) / #2 in
  let r9_0 := #0 in
  let r9_1 := #0 in
  let r9_2 := #0 in
  let r9_3 := #0 in
  let r9_4 := - t103 in
  let r9_5 := #0 in
  let r9_6 := #0 in
  let r9_7 := #0 in
  let r9_8 := #0 in
  let r10_0 := #0 in
  let r10_1 := #0 in
  let r10_2 := #0 in
  let r10_3 := #0 in
  let r10_4 := t59 in
  let r10_5 := #0 in
  let r10_6 := #0 in
  let r10_7 := #0 in
  let r10_8 := #0 in
  let r11_0 := #0 in
  let r11_1 := #0 in
  let r11_2 := #0 in
  let r11_3 := #0 in
  let r11_4 := t64 in
  let r11_5 := #0 in
  let r11_6 := #0 in
  let r11_7 := #0 in
  let r11_8 := #0 in
  [r0_0; r0_1; r0_2; r0_3; r0_4; r0_5; r0_6; r0_7; r0_8;
   r1_0; r1_1; r1_2; r1_3; r1_4; r1_5; r1_6; r1_7; r1_8;
   r2_0; r2_1; r2_2; r2_3; r2_4; r2_5; r2_6; r2_7; r2_8;
   r3_0; r3_1; r3_2; r3_3; r3_4; r3_5; r3_6; r3_7; r3_8;
   r4_0; r4_1; r4_2; r4_3; r4_4; r4_5; r4_6; r4_7; r4_8;
   r5_0; r5_1; r5_2; r5_3; r5_4; r5_5; r5_6; r5_7; r5_8;
   r6_0; r6_1; r6_2; r6_3; r6_4; r6_5; r6_6; r6_7; r6_8;
   r7_0; r7_1; r7_2; r7_3; r7_4; r7_5; r7_6; r7_7; r7_8;
   r8_0; r8_1; r8_2; r8_3; r8_4; r8_5; r8_6; r8_7; r8_8;
   r9_0; r9_1; r9_2; r9_3; r9_4; r9_5; r9_6; r9_7; r9_8;
   r10_0; r10_1; r10_2; r10_3; r10_4; r10_5; r10_6; r10_7; r10_8;
   r11_0; r11_1; r11_2; r11_3; r11_4; r11_5; r11_6; r11_7; r11_8].
(* Distance.hpp 999-1085 *)
Definition detail_pe2 (d x11 x12 x13 x21 x22 x23 x31 x32 x33 : T) : list T :=
  let t8 := #1 / d in
  let t18 := - x21 + x11 in
  let t19 := - x22 + x12 in
  let t20 := - x23 + x13 in
  let t21 := - x31 + x11 in
  let t22 := - x32 + x12 in
  let t23 := - x33 + x13 in
  let t24 := - x31 + x21 in
  let t25 := - x32 + x22 in
  let t26 := - x33 + x23 in
  let t43 := #1 / (t24 * t24 + t25 * t25 + t26 * t26) in
  let t45 := t18 * t22 + - (t19 * t21) in
  let t46 := t18 * t23 + - (t20 * t21) in
  let t47 := t19 * t23 + - (t20 * t22) in
  let t44 := t43 * t43 in
  let t51 := t45 * t45 + t46 * t46 + t47 * t47 in
  let t54 := (x21 * #2 + - (x31 * #2)) * t44 * t51 in
  let t55 := (x22 * #2 + - (x32 * #2)) * t44 * t51 in
  let t56 := (x23 * #2 + - (x33 * #2)) * t44 * t51 in
  let t44 := #1 / root (t43 * t51) in
  let r0_0 := #0 in
  let r0_1 := #0 in
  let r0_2 := #0 in
  let t51 := t8 * t43 * t44 in
  let r0_3 := t51 * (t25 * t45 * #2 + t26 * t46 * #2) / #2 in
  let r1_0 := #0 in
  let r1_1 := #0 in
  let r1_2 := #0 in
  let r1_3 := t51 * (t24 * t45 * #2 - t26 * t47 * #2) * (#(-1) / #2) in
  let r2_0 := #0 in
  let r2_1 := #0 in
  let r2_2 := #0 in
  let r2_3 := t51 * (t24 * t46 * #2 + t25 * t47 * #2) * (#(-1) / #2) in
  let r3_0 := #0 in
  let r3_1 := #0 in
  let r3_2 := #0 in
  let t51 := t8 * t44 in
  let r3_3 := t51 * (t54 + t43 * (t22 * t45 * #2 + t23 * t46 * #2)) * (#(-1) / #2) in
  let r4_0 := #0 in
  let r4_1 := #0 in
  let r4_2 := #0 in
  let r4_3 := t51 * (t55 - t43 * (t21 * t45 * #2 - t23 * t47 * #2)) * (#(-1) / #2) in
  let r5_0 := #0 in
  let r5_1 := #0 in
  let r5_2 := #0 in
  let r5_3 := t51 * (t56 - t43 * (t21 * t46 * #2 + t22 * t47 * #2)) * (#(-1) / #2) in
  let r6_0 := #0 in
  let r6_1 := #0 in
  let r6_2 := #0 in
  let r6_3 := t51 * (t54 + t43 * (t19 * t45 * #2 + t20 * t46 * #2)) / #2 in
  let r7_0 := #0 in
  let r7_1 := #0 in
  let r7_2 := #0 in
  let r7_3 := t51 * (t55 - t43 * (t18 * t45 * #2 - t20 * t47 * #2)) / #2 in
  let r8_0 := #0 in
  let r8_1 := #0 in
  let r8_2 := #0 in
  let r8_3 := t51 * (t56 - t43 * (t18 * t46 * #2 + t19 * t47 * #2)) / #2 in
  [r0_0; r0_1; r0_2; r0_3;
   r1_0; r1_1; r1_2; r1_3;
   r2_0; r2_1; r2_2; r2_3;
   r3_0; r3_1; r3_2; r3_3;
   r4_0; r4_1; r4_2; r4_3;
   r5_0; r5_1; r5_2; r5_3;
   r6_0; r6_1; r6_2; r6_3;
   r7_0; r7_1; r7_2; r7_3;
   r8_0; r8_1; r8_2; r8_3].
(* Distance.hpp 1912-2113 *)
Definition detail_peeV0V1 (d x11 x12 x13 x21 x22 x23 x31 x32 x33 x41 x42 x43 : T) : list T :=
  let t12 := - x21 + x11 in
  let t13 := - x22 + x12 in
  let t14 := - x23 + x13 in
  let t15 := - x31 + x11 in
  let t16 := - x32 + x12 in
  let t17 := - x33 + x13 in
  let t18 := - x41 + x31 in
  let t19 := - x42 + x32 in
  let t20 := - x43 + x33 in
  let t33 := t15 * t19 in
  let t34 := t16 * t18 in
  let t35 := t15 * t20 in
  let t36 := t17 * t18 in
  let t37 := t16 * t20 in
  let t38 := t17 * t19 in
  let t45 := t12 * t19 + - (t13 * t18) in
  let t46 := t12 * t20 + - (t14 * t18) in
  let t47 := t13 * t20 + - (t14 * t19) in
  let t69 := t13 * t45 * #2 + t14 * t46 * #2 in
  let t70 := t12 * t46 * #2 + t13 * t47 * #2 in
  let t71 := t19 * t45 * #2 + t20 * t46 * #2 in
  let t72 := t18 * t46 * #2 + t19 * t47 * #2 in
  let t19 := t45 * t45 + t46 * t46 + t47 * t47 in
  let t73 := t12 * t45 * #2 + - (t14 * t47 * #2) in
  let t74 := t18 * t45 * #2 + - (t20 * t47 * #2) in
  let t76 := #1 / t19 in
  let t19 := #1 / root (t19) in
  let t79 := t17 * t45 + t15 * t47 + - (t16 * t46) in
  let t77 := t76 * t76 in
  let t80 := t79 * t79 in
  let t81 := t69 * t19 / #2 in
  let t82 := t70 * t19 / #2 in
  let t83 := t71 * t19 / #2 in
  let t84 := t72 * t19 / #2 in
  let t85 := t73 * t19 / #2 in
  let t86 := t74 * t19 / #2 in
  let t89 := t69 * t77 * t80 in
  let t90 := t70 * t77 * t80 in
  let t20 := t71 * t77 * t80 in
  let t18 := t72 * t77 * t80 in
  let t71 := t73 * t77 * t80 in
  let t19 := t74 * t77 * t80 in
  let r0_0 := #0 in
  let r0_1 := #0 in
  let r0_2 := #0 in
  let r0_3 := #0 in
  let r0_4 := t83 in
  let r0_5 := #0 in
  let r0_6 := #0 in
  let r0_7 := #0 in
  let t70 := t76 * t79 in
  let t69 := #1 / d * (#1 / root (t76 * t80)) in
  let r0_8 := t69 * (t20 - t70 * (- t37 + t38 + t47) * #2) * (#(-1) / #2) in
  let r1_0 := #0 in
  let r1_1 := #0 in
  let r1_2 := #0 in
  let r1_3 := #0 in
  let r1_4 := - t86 in
  let r1_5 := #0 in
  let r1_6 := #0 in
  let r1_7 := #0 in
  let r1_8 := t69 * (t19 - t70 * (- t35 + t36 + t46) * #2) / #2 in
  let r2_0 := #0 in
  let r2_1 := #0 in
  let r2_2 := #0 in
  let r2_3 := #0 in
  let r2_4 := - t84 in
  let r2_5 := #0 in
  let r2_6 := #0 in
  let r2_7 := #0 in
  let r2_8 := t69 * (t18 + t70 * (- t33 + t34 + t45) * #2) / #2 in
  let r3_0 := #0 in
  let r3_1 := #0 in
  let r3_2 := #0 in
  let r3_3 := #0 in
  let r3_4 := - t83 in
  let r3_5 := #0 in
  let r3_6 := #0 in
  let r3_7 := #0 in
  let r3_8 := t69 * (t20 + t70 * (t37 - t38) * #2) / #2 in
  let r4_0 := #0 in
  let r4_1 := #0 in
  let r4_2 := #0 in
  let r4_3 := #0 in
  let r4_4 := t86 in
  let r4_5 := #0 in
  let r4_6 := #0 in
  let r4_7 := #0 in
  let r4_8 := t69 * (t19 + t70 * (t35 - t36) * #2) * (#(-1) / #2) in
  let r5_0 := #0 in
  let r5_1 := #0 in
  let r5_2 := #0 in
  let r5_3 := #0 in
  let r5_4 := t84 in
  let r5_5 := #0 in
  let r5_6 := #0 in
  let r5_7 := #0 in
  let r5_8 := t69 * (t18 - t70 * (t33 - t34) * #2) * (#(-1) / #2) in
  let r6_0 := #0 in
  let r6_1 := #0 in
  let r6_2 := #0 in
  let r6_3 := #0 in
  let r6_4 := - t81 in
  let r6_5 := #0 in
  let r6_6 := #0 in
  let r6_7 := #0 in
  let t20 := t13 * t17 + - (t14 * t16) in
  let r6_8 := t69 * (t89 - t70 * (t20 + t47) * #2) / #2 in
  let r7_0 := #0 in
  let r7_1 := #0 in
  let r7_2 := #0 in
  let r7_3 := #0 in
  let r7_4 := t85 in
  let r7_5 := #0 in
  let r7_6 := #0 in
  let r7_7 := #0 in
  let t18 := t12 * t17 + - (t14 * t15) in
  let r7_8 := t69 * (t71 - t70 * (t18 + t46) * #2) * (#(-1) / #2) in
  let r8_0 := #0 in
  let r8_1 := #0 in
  let r8_2 := #0 in
  let r8_3 := #0 in
  let r8_4 := t82 in
  let r8_5 := #0 in
  let r8_6 := #0 in
  let r8_7 := #0 in
  let t19 := t12 * t16 + - (t13 * t15) in
  let r8_8 := t69 * (t90 + t70 * (t19 + t45) * #2) * (#(-1) / #2) in
  let r9_0 := #0 in
  let r9_1 := #0 in
  let r9_2 := #0 in
  let r9_3 := #0 in
  let r9_4 := t81 in
  let r9_5 := #0 in
  let r9_6 := #0 in
  let r9_7 := #0 in
  let r9_8 := t69 * (t89 - t70 * t20 * #2) * (#(-1) / #2) in
  let r10_0 := #0 in
  let r10_1 := #0 in
  let r10_2 := #0 in
  let r10_3 := #0 in
  let r10_4 := - t85 in
  let r10_5 := #0 in
  let r10_6 := #0 in
  let r10_7 := #0 in
  let r10_8 := t69 * (t71 - t70 * t18 * #2) / #2 in
  let r11_0 := #0 in
  let r11_1 := #0 in
  let r11_2 := #0 in
  let r11_3 := #0 in
  let r11_4 := - t82 in
  let r11_5 := #0 in
  let r11_6 := #0 in
  let r11_7 := #0 in
  let r11_8 := t69 * (t90 + t70 * t19 * #2) / #2 in
  [r0_0; r0_1; r0_2; r0_3; r0_4; r0_5; r0_6; r0_7; r0_8;
   r1_0; r1_1; r1_2; r1_3; r1_4; r1_5; r1_6; r1_7; r1_8;
   r2_0; r2_1; r2_2; r2_3; r2_4; r2_5; r2_6; r2_7; r2_8;
   r3_0; r3_1; r3_2; r3_3; r3_4; r3_5; r3_6; r3_7; r3_8;
   r4_0; r4_1; r4_2; r4_3; r4_4; r4_5; r4_6; r4_7; r4_8;
   r5_0; r5_1; r5_2; r5_3; r5_4; r5_5; r5_6; r5_7; r5_8;
   r6_0; r6_1; r6_2; r6_3; r6_4; r6_5; r6_6; r6_7; r6_8;
   r7_0; r7_1; r7_2; r7_3; r7_4; r7_5; r7_6; r7_7; r7_8;
   r8_0; r8_1; r8_2; r8_3; r8_4; r8_5; r8_6; r8_7; r8_8;
   r9_0; r9_1; r9_2; r9_3; r9_4; r9_5; r9_6; r9_7; r9_8;
   r10_0; r10_1; r10_2; r10_3; r10_4; r10_5; r10_6; r10_7; r10_8;
   r11_0; r11_1; r11_2; r11_3; r11_4; r11_5; r11_6; r11_7; r11_8].
(* Distance.hpp 2114-2289 *)
Definition detail_ee2 (d x11 x12 x13 x21 x22 x23 x31 x32 x33 x41 x42 x43 : T) : list T :=
  let t12 := - x21 + x11 in
  let t13 := - x22 + x12 in
  let t14 := - x23 + x13 in
  let t15 := - x31 + x11 in
  let t16 := - x32 + x12 in
  let t17 := - x33 + x13 in
  let t18 := - x41 + x31 in
  let t19 := - x42 + x32 in
  let t20 := - x43 + x33 in
  let t33 := t15 * t19 in
  let t34 := t16 * t18 in
  let t35 := t15 * t20 in
  let t36 := t17 * t18 in
  let t37 := t16 * t20 in
  let t38 := t17 * t19 in
  let t45 := t12 * t19 + - (t13 * t18) in
  let t46 := t12 * t20 + - (t14 * t18) in
  let t47 := t13 * t20 + - (t14 * t19) in
  let t76 := #1 / (t45 * t45 + t46 * t46 + t47 * t47) in
  let t78 := t17 * t45 + t15 * t47 + - (t16 * t46) in
  let t77 := t76 * t76 in
  let t79 := t78 * t78 in
  let t82 := (t13 * t45 * #2 + t14 * t46 * #2) * t77 * t79 in
  let t83 := (t12 * t46 * #2 + t13 * t47 * #2) * t77 * t79 in
  let t84 := (t19 * t45 * #2 + t20 * t46 * #2) * t77 * t79 in
  let t19 := (t18 * t46 * #2 + t19 * t47 * #2) * t77 * t79 in
  let t86 := (t12 * t45 * #2 + - (t14 * t47 * #2)) * t77 * t79 in
  let t20 := (t18 * t45 * #2 + - (t20 * t47 * #2)) * t77 * t79 in
  let t78 := t78 * t76 in
  let t77 := #1 / d * (#1 / root (t76 * t79)) in
  let r0_0 := #0 in
  let r0_1 := #0 in
  let r0_2 := #0 in
  let r0_3 := #0 in
  let r0_4 := #0 in
  let r0_5 := #0 in
  let r0_6 := #0 in
  let r0_7 := #0 in
  let r0_8 := t77 * (t84 - t78 * (- t37 + t38 + t47) * #2) * (#(-1) / #2) in
  let r1_0 := #0 in
  let r1_1 := #0 in
  let r1_2 := #0 in
  let r1_3 := #0 in
  let r1_4 := #0 in
  let r1_5 := #0 in
  let r1_6 := #0 in
  let r1_7 := #0 in
  let r1_8 := t77 * (t20 - t78 * (- t35 + t36 + t46) * #2) / #2 in
  let r2_0 := #0 in
  let r2_1 := #0 in
  let r2_2 := #0 in
  let r2_3 := #0 in
  let r2_4 := #0 in
  let r2_5 := #0 in
  let r2_6 := #0 in
  let r2_7 := #0 in
  let r2_8 := t77 * (t19 + t78 * (- t33 + t34 + t45) * #2) / #2 in
  let r3_0 := #0 in
  let r3_1 := #0 in
  let r3_2 := #0 in
  let r3_3 := #0 in
  let r3_4 := #0 in
  let r3_5 := #0 in
  let r3_6 := #0 in
  let r3_7 := #0 in
  let r3_8 := t77 * (t84 + t78 * (t37 - t38) * #2) / #2 in
  let r4_0 := #0 in
  let r4_1 := #0 in
  let r4_2 := #0 in
  let r4_3 := #0 in
  let r4_4 := #0 in
  let r4_5 := #0 in
  let r4_6 := #0 in
  let r4_7 := #0 in
  let r4_8 := t77 * (t20 + t78 * (t35 - t36) * #2) * (#(-1) / #2) in
  let r5_0 := #0 in
  let r5_1 := #0 in
  let r5_2 := #0 in
  let r5_3 := #0 in
  let r5_4 := #0 in
  let r5_5 := #0 in
  let r5_6 := #0 in
  let r5_7 := #0 in
  let r5_8 := t77 * (t19 - t78 * (t33 - t34) * #2) * (#(-1) / #2) in
  let r6_0 := #0 in
  let r6_1 := #0 in
  let r6_2 := #0 in
  let r6_3 := #0 in
  let r6_4 := #0 in
  let r6_5 := #0 in
  let r6_6 := #0 in
  let r6_7 := #0 in
  let t18 := t13 * t17 + - (t14 * t16) in
  let r6_8 := t77 * (t82 - t78 * (t18 + t47) * #2) / #2 in
  let r7_0 := #0 in
  let r7_1 := #0 in
  let r7_2 := #0 in
  let r7_3 := #0 in
  let r7_4 := #0 in
  let r7_5 := #0 in
  let r7_6 := #0 in
  let r7_7 := #0 in
  let t20 := t12 * t17 + - (t14 * t15) in
  let r7_8 := t77 * (t86 - t78 * (t20 + t46) * #2) * (#(-1) / #2) in
  let r8_0 := #0 in
  let r8_1 := #0 in
  let r8_2 := #0 in
  let r8_3 := #0 in
  let r8_4 := #0 in
  let r8_5 := #0 in
  let r8_6 := #0 in
  let r8_7 := #0 in
  let t19 := t12 * t16 + - (t13 * t15) in
  let r8_8 := t77 * (t83 + t78 * (t19 + t45) * #2) * (#(-1) / #2) in
  let r9_0 := #0 in
  let r9_1 := #0 in
  let r9_2 := #0 in
  let r9_3 := #0 in
  let r9_4 := #0 in
  let r9_5 := #0 in
  let r9_6 := #0 in
  let r9_7 := #0 in
  let r9_8 := t77 * (t82 - t78 * t18 * #2) * (#(-1) / #2) in
  let r10_0 := #0 in
  let r10_1 := #0 in
  let r10_2 := #0 in
  let r10_3 := #0 in
  let r10_4 := #0 in
  let r10_5 := #0 in
  let r10_6 := #0 in
  let r10_7 := #0 in
  let r10_8 := t77 * (t86 - t78 * t20 * #2) / #2 in
  let r11_0 := #0 in
  let r11_1 := #0 in
  let r11_2 := #0 in
  let r11_3 := #0 in
  let r11_4 := #0 in
  let r11_5 := #0 in
  let r11_6 := #0 in
  let r11_7 := #0 in
  let r11_8 := t77 * (t83 + t78 * t19 * #2) / #2 in
  [r0_0; r0_1; r0_2; r0_3; r0_4; r0_5; r0_6; r0_7; r0_8;
   r1_0; r1_1; r1_2; r1_3; r1_4; r1_5; r1_6; r1_7; r1_8;
   r2_0; r2_1; r2_2; r2_3; r2_4; r2_5; r2_6; r2_7; r2_8;
   r3_0; r3_1; r3_2; r3_3; r3_4; r3_5; r3_6; r3_7; r3_8;
   r4_0; r4_1; r4_2; r4_3; r4_4; r4_5; r4_6; r4_7; r4_8;
   r5_0; r5_1; r5_2; r5_3; r5_4; r5_5; r5_6; r5_7; r5_8;
   r6_0; r6_1; r6_2; r6_3; r6_4; r6_5; r6_6; r6_7; r6_8;
   r7_0; r7_1; r7_2; r7_3; r7_4; r7_5; r7_6; r7_7; r7_8;
   r8_0; r8_1; r8_2; r8_3; r8_4; r8_5; r8_6; r8_7; r8_8;
   r9_0; r9_1; r9_2; r9_3; r9_4; r9_5; r9_6; r9_7; r9_8;
   r10_0; r10_1; r10_2; r10_3; r10_4; r10_5; r10_6; r10_7; r10_8;
   r11_0; r11_1; r11_2; r11_3; r11_4; r11_5; r11_6; r11_7; r11_8].
(* Distance.hpp 3593-3775 *)
Definition detail_pt2 (d x11 x12 x13 x21 x22 x23 x31 x32 x33 x41 x42 x43 : T) : list T :=
  let t2 := #1 / d in
  let t12 := - x21 + x11 in
  let t13 := - x22 + x12 in
  let t14 := - x23 + x13 in
  let t15 := - x31 + x21 in
  let t16 := - x32 + x22 in
  let t17 := - x33 + x23 in
  let t18 := - x41 + x21 in
  let t19 := - x42 + x22 in
  let t20 := - x43 + x23 in
  let t21 := - x41 + x31 in
  let t22 := - x42 + x32 in
  let t23 := - x43 + x33 in
  let t33 := t15 * t19 + - (t16 * t18) in
  let t34 := t15 * t20 + - (t17 * t18) in
  let t35 := t16 * t20 + - (t17 * t19) in
  let t44 := #1 / (t33 * t33 + t34 * t34 + t35 * t35) in
  let t46 := t14 * t33 + t12 * t35 + - (t13 * t34) in
  let t47 := t46 * t46 in
  let t49 := #1 / root (t44 * t47) in
  let r0_0 := #0 in
  let r0_1 := #0 in
  let r0_2 := #0 in
  let r0_3 := #0 in
  let r0_4 := #0 in
  let r0_5 := #0 in
  let r0_6 := #0 in
  let r0_7 := #0 in
  let r0_8 := t2 * t35 * t44 * t46 * t49 in
  let r1_0 := #0 in
  let r1_1 := #0 in
  let r1_2 := #0 in
  let r1_3 := #0 in
  let r1_4 := #0 in
  let r1_5 := #0 in
  let r1_6 := #0 in
  let r1_7 := #0 in
  let r1_8 := - t2 * t34 * t44 * t46 * t49 in
  let r2_0 := #0 in
  let r2_1 := #0 in
  let r2_2 := #0 in
  let r2_3 := #0 in
  let r2_4 := #0 in
  let r2_5 := #0 in
  let r2_6 := #0 in
  let r2_7 := #0 in
  let r2_8 := t2 * t33 * t44 * t46 * t49 in
  let b_d := t44 * t44 * t47 in
  let t44 := t44 * t46 in
  let t47 := t2 * t49 in
  let r3_0 := #0 in
  let r3_1 := #0 in
  let r3_2 := #0 in
  let r3_3 := #0 in
  let r3_4 := #0 in
  let r3_5 := #0 in
  let r3_6 := #0 in
  let r3_7 := #0 in
  let r3_8 := t47 * (b_d * (t22 * t33 * #2 + t23 * t34 * #2) + t44 * (t35 + t13 * t23 - t14 * t22) * #2) * (#(-1) / #2) in
  let r4_0 := #0 in
  let r4_1 := #0 in
  let r4_2 := #0 in
  let r4_3 := #0 in
  let r4_4 := #0 in
  let r4_5 := #0 in
  let r4_6 := #0 in
  let r4_7 := #0 in
  let r4_8 := t47 * (b_d * (t21 * t33 * #2 - t23 * t35 * #2) + t44 * (t34 + t12 * t23 - t14 * t21) * #2) / #2 in
  let r5_0 := #0 in
  let r5_1 := #0 in
  let r5_2 := #0 in
  let r5_3 := #0 in
  let r5_4 := #0 in
  let r5_5 := #0 in
  let r5_6 := #0 in
  let r5_7 := #0 in
  let r5_8 := t47 * (b_d * (t21 * t34 * #2 + t22 * t35 * #2) - t44 * (t33 + t12 * t22 - t13 * t21) * #2) / #2 in
  let r6_0 := #0 in
  let r6_1 := #0 in
  let r6_2 := #0 in
  let r6_3 := #0 in
  let r6_4 := #0 in
  let r6_5 := #0 in
  let r6_6 := #0 in
  let r6_7 := #0 in
  let r6_8 := t47 * (t44 * (t13 * t20 - t14 * t19) * #2 + b_d * (t19 * t33 * #2 + t20 * t34 * #2)) / #2 in
  let r7_0 := #0 in
  let r7_1 := #0 in
  let r7_2 := #0 in
  let r7_3 := #0 in
  let r7_4 := #0 in
  let r7_5 := #0 in
  let r7_6 := #0 in
  let r7_7 := #0 in
  let r7_8 := t47 * (t44 * (t12 * t20 - t14 * t18) * #2 + b_d * (t18 * t33 * #2 - t20 * t35 * #2)) * (#(-1) / #2) in
  let r8_0 := #0 in
  let r8_1 := #0 in
  let r8_2 := #0 in
  let r8_3 := #0 in
  let r8_4 := #0 in
  let r8_5 := #0 in
  let r8_6 := #0 in
  let r8_7 := #0 in
  let r8_8 := t47 * (t44 * (t12 * t19 - t13 * t18) * #2 - b_d * (t18 * t34 * #2 + t19 * t35 * #2)) / #2 in
  let r9_0 := #0 in
  let r9_1 := #0 in
  let r9_2 := #0 in
  let r9_3 := #0 in
  let r9_4 := #0 in
  let r9_5 := #0 in
  let r9_6 := #0 in
  let r9_7 := #0 in
  let r9_8 := t47 * (t44 * (t13 * t17 - t14 * t16) * #2 + b_d * (t16 * t33 * #2 + t17 * t34 * #2)) * (#(-1) / #2) in
  let r10_0 := #0 in
  let r10_1 := #0 in
  let r10_2 := #0 in
  let r10_3 := #0 in
  let r10_4 := #0 in
  let r10_5 := #0 in
  let r10_6 := #0 in
  let r10_7 := #0 in
  let r10_8 := t47 * (t44 * (t12 * t17 - t14 * t15) * #2 + b_d * (t15 * t33 * #2 - t17 * t35 * #2)) / #2 in
  let r11_0 := #0 in
  let r11_1 := #0 in
  let r11_2 := #0 in
  let r11_3 := #0 in
  let r11_4 := #0 in
  let r11_5 := #0 in
  let r11_6 := #0 in
  let r11_7 := #0 in
  let r11_8 := t47 * (t44 * (t12 * t16 - t13 * t15) * #2 - b_d * (t15 * t34 * #2 + t16 * t35 * #2)) * (#(-1) / #2) in
  [r0_0; r0_1; r0_2; r0_3; r0_4; r0_5; r0_6; r0_7; r0_8;
   r1_0; r1_1; r1_2; r1_3; r1_4; r1_5; r1_6; r1_7; r1_8;
   r2_0; r2_1; r2_2; r2_3; r2_4; r2_5; r2_6; r2_7; r2_8;
   r3_0; r3_1; r3_2; r3_3; r3_4; r3_5; r3_6; r3_7; r3_8;
   r4_0; r4_1; r4_2; r4_3; r4_4; r4_5; r4_6; r4_7; r4_8;
   r5_0; r5_1; r5_2; r5_3; r5_4; r5_5; r5_6; r5_7; r5_8;
   r6_0; r6_1; r6_2; r6_3; r6_4; r6_5; r6_6; r6_7; r6_8;
   r7_0; r7_1; r7_2; r7_3; r7_4; r7_5; r7_6; r7_7; r7_8;
   r8_0; r8_1; r8_2; r8_3; r8_4; r8_5; r8_6; r8_7; r8_8;
   r9_0; r9_1; r9_2; r9_3; r9_4; r9_5; r9_6; r9_7; r9_8;
   r10_0; r10_1; r10_2; r10_3; r10_4; r10_5; r10_6; r10_7; r10_8;
   r11_0; r11_1; r11_2; r11_3; r11_4; r11_5; r11_6; r11_7; r11_8].
End Template.

Local Open Scope R_scope.
(* 224-234: dist2_pp, dist_pp *)
Definition dist2_pp (a b : v3) : R := norm_sqr (vsub b a).
Definition dist_pp (a b : v3) : R := sqrt (dist2_pp a b).
(* 1171-1176 *)
Definition dist_pe (p e0 e1 : v3) : R := sqrt (dist2_pe3 p e0 e1).
(* 2439-2444 *)
Definition dist_ee (ea0 ea1 eb0 eb1 : v3) : R := sqrt (dist2_ee ea0 ea1 eb0 eb1).
(* 3987-3992 *)
Definition dist_pt (p t0 t1 t2 : v3) : R := sqrt (dist2_pt p t0 t1 t2).
(* 203-213 *)
Definition pFpx_ppp (x0 x1 x2 x3 : v3) (dHat : R) : list R := on_4 (detail_pppV0V1 real sqrt dHat) x0 x1 x2 x3.
(* 214-222 *)
Definition pFpx_pp2 (x0 x1 : v3) (dHat : R) : list R :=
  detail_pp2 real sqrt dHat (vx x0) (vy x0) (vz x0) (vx x1) (vy x1) (vz x1).
(* 1088-1098 *)
Definition pFpx_ppe (x0 x1 x2 x3 : v3) (dHat : R) : list R := on_4 (detail_ppeV0V1 real sqrt dHat) x0 x1 x2 x3.
(* 1100-1109 *)
Definition pFpx_pe2 (x0 x1 x2 : v3) (dHat : R) : list R := on_3 (detail_pe2 real sqrt dHat) x0 x1 x2.
(* 2292-2302 *)
Definition pFpx_pee (x0 x1 x2 x3 : v3) (dHat : R) : list R := on_4 (detail_peeV0V1 real sqrt dHat) x0 x1 x2 x3.
(* 2303-2313 *)
Definition pFpx_ee2 (x0 x1 x2 x3 : v3) (dHat : R) : list R := on_4 (detail_ee2 real sqrt dHat) x0 x1 x2 x3.
(* 3778-3788 *)
Definition pFpx_pt2 (x0 x1 x2 x3 : v3) (dHat : R) : list R := on_4 (detail_pt2 real sqrt dHat) x0 x1 x2 x3.
