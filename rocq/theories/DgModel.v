(* Model of geometry/Distance.hpp 224-262 (dist2_pp), 270-813 and 1121-1215 (point-edge), 1218-1910 and
   2383-2481 (edge-edge), 2485-2947 (edge-edge mollifier), 2948-3591 and 3939-4025 (point-triangle): squared
   distances to lines, planes and between lines, their gradients and Hessians.
   The templates g_..., H_... take the scalar type T as in the code; every assignment is a let,
   a repeated assignment shadows. The outputs g.val(i), H.val(i) form a list.
   Simplifications: exact real arithmetic once T is R; quotients by zero are Coq's total ones, the
   theorems exclude them where the code divides. *)
From Coq Require Import ZArith Reals List.
From Verif Require Import FricModel.
Import ListNotations.

(* the operations of the scalar type *)
Record ops (T : Type) := Ops { cst : Z -> T; plus : T -> T -> T; sub : T -> T -> T; times : T -> T -> T; neg : T -> T; quot : T -> T -> T }.
Arguments cst {T}. Arguments plus {T}. Arguments sub {T}. Arguments times {T}. Arguments neg {T}. Arguments quot {T}.
Section Template.
Context {T : Type} (o : ops T).
Declare Scope scalar_scope.
Local Open Scope scalar_scope.
Local Notation "# n" := (cst o n%Z) (at level 1, format "# n") : scalar_scope.
Local Notation "x + y" := (plus o x y) : scalar_scope.
Local Notation "x - y" := (sub o x y) : scalar_scope.
Local Notation "x * y" := (times o x y) : scalar_scope.
Local Notation "- x" := (neg o x) : scalar_scope.
Local Notation "x / y" := (quot o x y) : scalar_scope.
(* Distance.hpp 273-302 *)
Definition g_PE2D (v01 v02 v11 v12 v21 v22 : T) : list T :=
  let t13 := - v21 + v11 in
  let t14 := - v22 + v12 in
  let t23 := #1 / (t13 * t13 + t14 * t14) in
  let t25 := v11 * v22 + - (v12 * v21) + t14 * v01 + - (t13 * v02) in
  let t24 := t23 * t23 in
  let t26 := t25 * t25 in
  let t27 := (v11 * #2 + - (v21 * #2)) * t24 * t26 in
  let t26 := t26 * ((v12 * #2 + - (v22 * #2)) * t24) in
  let g0 := t14 * t23 * t25 * #2 in
  let g1 := t13 * t23 * t25 * #(-2) in
  let t24 := t23 * t25 in
  let g2 := - t27 - t24 * (- v22 + v02) * #2 in
  let g3 := - t26 + t24 * (- v21 + v01) * #2 in
  let g4 := t27 + t24 * (v02 - v12) * #2 in
  let g5 := t26 - t24 * (v01 - v11) * #2 in
  [g0; g1; g2; g3; g4; g5].
(* Distance.hpp 304-356 *)
Definition g_PE3D (v01 v02 v03 v11 v12 v13 v21 v22 v23 : T) : list T :=
  let t17 := - v11 + v01 in
  let t18 := - v12 + v02 in
  let t19 := - v13 + v03 in
  let t20 := - v21 + v01 in
  let t21 := - v22 + v02 in
  let t22 := - v23 + v03 in
  let t23 := - v21 + v11 in
  let t24 := - v22 + v12 in
  let t25 := - v23 + v13 in
  let t42 := #1 / (t23 * t23 + t24 * t24 + t25 * t25) in
  let t44 := t17 * t21 + - (t18 * t20) in
  let t45 := t17 * t22 + - (t19 * t20) in
  let t46 := t18 * t22 + - (t19 * t21) in
  let t43 := t42 * t42 in
  let t50 := t44 * t44 + t45 * t45 + t46 * t46 in
  let t51 := (v11 * #2 + - (v21 * #2)) * t43 * t50 in
  let t52 := (v12 * #2 + - (v22 * #2)) * t43 * t50 in
  let t43 := (v13 * #2 + - (v23 * #2)) * t43 * t50 in
  let g0 := t42 * (t24 * t44 * #2 + t25 * t45 * #2) in
  let g1 := - t42 * (t23 * t44 * #2 - t25 * t46 * #2) in
  let g2 := - t42 * (t23 * t45 * #2 + t24 * t46 * #2) in
  let g3 := - t51 - t42 * (t21 * t44 * #2 + t22 * t45 * #2) in
  let g4 := - t52 + t42 * (t20 * t44 * #2 - t22 * t46 * #2) in
  let g5 := - t43 + t42 * (t20 * t45 * #2 + t21 * t46 * #2) in
  let g6 := t51 + t42 * (t18 * t44 * #2 + t19 * t45 * #2) in
  let g7 := t52 - t42 * (t17 * t44 * #2 - t19 * t46 * #2) in
  let g8 := t43 - t42 * (t17 * t45 * #2 + t18 * t46 * #2) in
  [g0; g1; g2; g3; g4; g5; g6; g7; g8].
(* Distance.hpp 358-489 *)
Definition H_PE2D (v01 v02 v11 v12 v21 v22 : T) : list T :=
  let t15 := - v11 + v01 in
  let t16 := - v12 + v02 in
  let t17 := - v21 + v01 in
  let t18 := - v22 + v02 in
  let t19 := - v21 + v11 in
  let t20 := - v22 + v12 in
  let t21 := v11 * #2 + - (v21 * #2) in
  let t22 := v12 * #2 + - (v22 * #2) in
  let t23 := t19 * t19 in
  let t24 := t20 * t20 in
  let t31 := #1 / (t23 + t24) in
  let t34 := v11 * v22 + - (v12 * v21) + t20 * v01 + - (t19 * v02) in
  let t32 := t31 * t31 in
  let t33 := t31 * t31 * t31 in
  let t35 := t34 * t34 in
  let t60 := t31 * t34 * #2 in
  let t59 := - (t19 * t20 * t31 * #2) in
  let t62 := t32 * t35 * #2 in
  let t64 := t21 * t21 * t33 * t35 * #2 in
  let t65 := t22 * t22 * t33 * t35 * #2 in
  let t68 := t15 * t21 * t32 * t34 * #2 in
  let t71 := t16 * t22 * t32 * t34 * #2 in
  let t72 := t17 * t21 * t32 * t34 * #2 in
  let t75 := t18 * t22 * t32 * t34 * #2 in
  let t76 := t19 * t21 * t32 * t34 * #2 in
  let t77 := t20 * t21 * t32 * t34 * #2 in
  let t78 := t19 * t22 * t32 * t34 * #2 in
  let t79 := t20 * t22 * t32 * t34 * #2 in
  let t90 := t21 * t22 * t33 * t35 * #2 in
  let t92 := t16 * t20 * t31 * #2 + t77 in
  let t94 := - (t17 * t19 * t31 * #2) + t78 in
  let t96 := t18 * t19 * t31 * #2 + - t60 + t76 in
  let t99 := - (t15 * t20 * t31 * #2) + - t60 + t79 in
  let t93 := t15 * t19 * t31 * #2 + - t78 in
  let t35 := - (t18 * t20 * t31 * #2) + - t77 in
  let t97 := t17 * t20 * t31 * #2 + t60 + - t79 in
  let t98 := - (t16 * t19 * t31 * #2) + t60 + - t76 in
  let t100 := - (t15 * t16 * t31 * #2) + t71 + - t68 + t90 in
  let t19 := - (t17 * t18 * t31 * #2) + t75 + - t72 + t90 in
  let t102_tmp := t17 * t22 * t32 * t34 in
  let t76 := t15 * t22 * t32 * t34 in
  let t22 := - (t15 * t17 * t31 * #2) + t62 + - t65 + t76 * #2 + t102_tmp * #2 in
  let t33 := t18 * t21 * t32 * t34 in
  let t20 := t16 * t21 * t32 * t34 in
  let t79 := - (t16 * t18 * t31 * #2) + t62 + - t64 + - (t20 * #2) + - (t33 * #2) in
  let t77 := t15 * t18 * t31 * #2 + t60 + t68 + - t75 + - t90 in
  let t78 := t16 * t17 * t31 * #2 + - t60 + t72 + - t71 + - t90 in
  let H0 := t24 * t31 * #2 in
  let H1 := t59 in
  let H2 := t35 in
  let H3 := t97 in
  let H4 := t92 in
  let H5 := t99 in
  let H6 := t59 in
  let H7 := t23 * t31 * #2 in
  let H8 := t96 in
  let H9 := t94 in
  let H10 := t98 in
  let H11 := t93 in
  let H12 := t35 in
  let H13 := t96 in
  let t35 := - t62 + t64 in
  let H14 := t35 + t18 * t18 * t31 * #2 + t33 * #4 in
  let H15 := t19 in
  let H16 := t79 in
  let H17 := t77 in
  let H18 := t97 in
  let H19 := t94 in
  let H20 := t19 in
  let t33 := - t62 + t65 in
  let H21 := t33 + t17 * t17 * t31 * #2 - t102_tmp * #4 in
  let H22 := t78 in
  let H23 := t22 in
  let H24 := t92 in
  let H25 := t98 in
  let H26 := t79 in
  let H27 := t78 in
  let H28 := t35 + t16 * t16 * t31 * #2 + t20 * #4 in
  let H29 := t100 in
  let H30 := t99 in
  let H31 := t93 in
  let H32 := t77 in
  let H33 := t22 in
  let H34 := t100 in
  let H35 := t33 + t15 * t15 * t31 * #2 - t76 * #4 in
  [H0; H1; H2; H3; H4; H5; H6; H7; H8; H9; H10; H11;
   H12; H13; H14; H15; H16; H17; H18; H19; H20; H21; H22; H23;
   H24; H25; H26; H27; H28; H29; H30; H31; H32; H33; H34; H35].
(* Distance.hpp 491-813 *)
Definition H_PE3D (v01 v02 v03 v11 v12 v13 v21 v22 v23 : T) : list T :=
  let t17 := - v11 + v01 in
  let t18 := - v12 + v02 in
  let t19 := - v13 + v03 in
  let t20 := - v21 + v01 in
  let t21 := - v22 + v02 in
  let t22 := - v23 + v03 in
  let t23 := - v21 + v11 in
  let t24 := - v22 + v12 in
  let t25 := - v23 + v13 in
  let t26 := v11 * #2 + - (v21 * #2) in
  let t27 := v12 * #2 + - (v22 * #2) in
  let t28 := v13 * #2 + - (v23 * #2) in
  let t35 := t23 * t23 in
  let t36 := t24 * t24 in
  let t37 := t25 * t25 in
  let t50 := t17 * t21 in
  let t51 := t18 * t20 in
  let t52 := t17 * t22 in
  let t53 := t19 * t20 in
  let t54 := t18 * t22 in
  let t55 := t19 * t21 in
  let t56 := t17 * t20 * #2 in
  let t62 := t18 * t21 * #2 in
  let t70 := t19 * t22 * #2 in
  let t71 := t17 * t23 * #2 in
  let t75 := t18 * t24 * #2 in
  let t79 := t19 * t25 * #2 in
  let t80 := t20 * t23 * #2 in
  let t84 := t21 * t24 * #2 in
  let t88 := t22 * t25 * #2 in
  let t38 := t17 * t17 * #2 in
  let t39 := t18 * t18 * #2 in
  let t40 := t19 * t19 * #2 in
  let t41 := t20 * t20 * #2 in
  let t42 := t21 * t21 * #2 in
  let t43 := t22 * t22 * #2 in
  let t44 := t35 * #2 in
  let t46 := t36 * #2 in
  let t48 := t37 * #2 in
  let t57 := t50 * #2 in
  let t58 := t51 * #2 in
  let t60 := t52 * #2 in
  let t63 := t53 * #2 in
  let t65 := t54 * #2 in
  let t67 := t55 * #2 in
  let t102 := #1 / (t35 + t36 + t37) in
  let t36 := t50 + - t51 in
  let t35 := t52 + - t53 in
  let t37 := t54 + - t55 in
  let t103 := t102 * t102 in
  let t104 := t102 * t102 * t102 in
  let t162 := - (t23 * t24 * t102 * #2) in
  let t163 := - (t23 * t25 * t102 * #2) in
  let t164 := - (t24 * t25 * t102 * #2) in
  let t213 := t18 * t36 * #2 + t19 * t35 * #2 in
  let t214 := t17 * t35 * #2 + t18 * t37 * #2 in
  let t215 := t21 * t36 * #2 + t22 * t35 * #2 in
  let t216 := t20 * t35 * #2 + t21 * t37 * #2 in
  let t217 := t24 * t36 * #2 + t25 * t35 * #2 in
  let t218 := t23 * t35 * #2 + t24 * t37 * #2 in
  let t35 := t36 * t36 + t35 * t35 + t37 * t37 in
  let t225 := t17 * t36 * #2 + - (t19 * t37 * #2) in
  let t226 := t20 * t36 * #2 + - (t22 * t37 * #2) in
  let t227 := t23 * t36 * #2 + - (t25 * t37 * #2) in
  let t36 := t26 * t103 in
  let t229 := t36 * t213 in
  let t37 := t27 * t103 in
  let t230 := t37 * t213 in
  let t311 := t28 * t103 in
  let t231 := t311 * t213 in
  let t232 := t36 * t214 in
  let t233 := t37 * t214 in
  let t234 := t311 * t214 in
  let t235 := t36 * t215 in
  let t236 := t37 * t215 in
  let t237 := t311 * t215 in
  let t238 := t36 * t216 in
  let t239 := t37 * t216 in
  let t240 := t311 * t216 in
  let t214 := t36 * t217 in
  let t215 := t37 * t217 in
  let t216 := t311 * t217 in
  let t217 := t36 * t218 in
  let t245 := t37 * t218 in
  let t213 := t311 * t218 in
  let t279 := t103 * t35 * #2 in
  let t281 := t26 * t26 * t104 * t35 * #2 in
  let t282 := t27 * t27 * t104 * t35 * #2 in
  let t283 := t28 * t28 * t104 * t35 * #2 in
  let t287 := t26 * t27 * t104 * t35 * #2 in
  let t218 := t26 * t28 * t104 * t35 * #2 in
  let t289 := t27 * t28 * t104 * t35 * #2 in
  let t247 := t36 * t225 in
  let t248 := t37 * t225 in
  let t249 := t311 * t225 in
  let t250 := t36 * t226 in
  let t251 := t37 * t226 in
  let t252 := t311 * t226 in
  let t253 := t36 * t227 in
  let t35 := t37 * t227 in
  let t36 := t311 * t227 in
  let t293 := t102 * (t75 + t79) + t214 in
  let t295 := - (t102 * (t80 + t84)) + t213 in
  let t299 := t102 * (t63 + t22 * t23 * #2 + - t60) + t217 in
  let t300 := t102 * (t67 + t22 * t24 * #2 + - t65) + t245 in
  let t303 := - (t102 * (t57 + t17 * t24 * #2 + - t58)) + t215 in
  let t304 := - (t102 * (t60 + t17 * t25 * #2 + - t63)) + t216 in
  let t294 := t102 * (t71 + t75) + - t213 in
  let t297 := - (t102 * (t80 + t88)) + t35 in
  let t88 := - (t102 * (t84 + t88)) + - t214 in
  let t301 := t102 * (t58 + t21 * t23 * #2 + - t57) + t253 in
  let t302 := t102 * (t65 + t21 * t25 * #2 + - t67) + t36 in
  let t84 := t102 * (t57 + t20 * t24 * #2 + - t58) + - t215 in
  let t80 := t102 * (t60 + t20 * t25 * #2 + - t63) + - t216 in
  let t75 := - (t102 * (t63 + t19 * t23 * #2 + - t60)) + - t217 in
  let t227 := - (t102 * (t67 + t19 * t24 * #2 + - t65)) + - t245 in
  let t311 := - (t17 * t19 * t102 * #2) + t231 + - t232 + t218 in
  let t245 := - (t20 * t22 * t102 * #2) + t237 + - t238 + t218 in
  let t226 := - t102 * (t67 - t54 * #4) + t233 + t252 + - t289 in
  let t28 := - t102 * (t63 - t52 * #4) + t232 + - t237 + - t218 in
  let t27 := - t102 * (t58 - t50 * #4) + t247 + - t236 + - t287 in
  let t225 := - (t102 * (t65 + - (t55 * #4))) + t239 + t249 + - t289 in
  let t26 := - (t102 * (t60 + - (t53 * #4))) + t238 + - t231 + - t218 in
  let t103 := - (t102 * (t57 + - (t51 * #4))) + t250 + - t230 + - t287 in
  let t104 := - (t102 * (t56 + t62)) + t234 + t240 + t279 + - t283 in
  let t218 := - (t102 * (t56 + t70)) + t248 + t251 + t279 + - t282 in
  let t217 := - (t102 * (t62 + t70)) + - t229 + - t235 + t279 + - t281 in
  let t216 := t102 * (t71 + t79) + - t35 in
  let t215 := - (t102 * (t58 + t18 * t23 * #2 + - t57)) + - t253 in
  let t214 := - (t102 * (t65 + t18 * t25 * #2 + - t67)) + - t36 in
  let t213 := - (t17 * t18 * t102 * #2) + t230 + - t247 + t287 in
  let t37 := - (t20 * t21 * t102 * #2) + t236 + - t250 + t287 in
  let t36 := - (t18 * t19 * t102 * #2) + - t233 + - t249 + t289 in
  let t35 := - (t21 * t22 * t102 * #2) + - t239 + - t252 + t289 in
  let H0 := t102 * (t46 + t48) in
  let H1 := t162 in
  let H2 := t163 in
  let H3 := t88 in
  let H4 := t84 in
  let H5 := t80 in
  let H6 := t293 in
  let H7 := t303 in
  let H8 := t304 in
  let H9 := t162 in
  let H10 := t102 * (t44 + t48) in
  let H11 := t164 in
  let H12 := t301 in
  let H13 := t297 in
  let H14 := t302 in
  let H15 := t215 in
  let H16 := t216 in
  let H17 := t214 in
  let H18 := t163 in
  let H19 := t164 in
  let H20 := t102 * (t44 + t46) in
  let H21 := t299 in
  let H22 := t300 in
  let H23 := t295 in
  let H24 := t75 in
  let H25 := t227 in
  let H26 := t294 in
  let H27 := t88 in
  let H28 := t301 in
  let H29 := t299 in
  let H30 := t235 * #2 + - t279 + t281 + t102 * (t42 + t43) in
  let H31 := t37 in
  let H32 := t245 in
  let H33 := t217 in
  let H34 := t27 in
  let H35 := t28 in
  let H36 := t84 in
  let H37 := t297 in
  let H38 := t300 in
  let H39 := t37 in
  let H40 := t251 * #(-2) + - t279 + t282 + t102 * (t41 + t43) in
  let H41 := t35 in
  let H42 := t103 in
  let H43 := t218 in
  let H44 := t226 in
  let H45 := t80 in
  let H46 := t302 in
  let H47 := t295 in
  let H48 := t245 in
  let H49 := t35 in
  let H50 := t240 * #(-2) + - t279 + t283 + t102 * (t41 + t42) in
  let H51 := t26 in
  let H52 := t225 in
  let H53 := t104 in
  let H54 := t293 in
  let H55 := t215 in
  let H56 := t75 in
  let H57 := t217 in
  let H58 := t103 in
  let H59 := t26 in
  let H60 := t229 * #2 + - t279 + t281 + t102 * (t39 + t40) in
  let H61 := t213 in
  let H62 := t311 in
  let H63 := t303 in
  let H64 := t216 in
  let H65 := t227 in
  let H66 := t27 in
  let H67 := t218 in
  let H68 := t225 in
  let H69 := t213 in
  let H70 := t248 * #(-2) + - t279 + t282 + t102 * (t38 + t40) in
  let H71 := t36 in
  let H72 := t304 in
  let H73 := t214 in
  let H74 := t294 in
  let H75 := t28 in
  let H76 := t226 in
  let H77 := t104 in
  let H78 := t311 in
  let H79 := t36 in
  let H80 := t234 * #(-2) + - t279 + t283 + t102 * (t38 + t39) in
  [H0; H1; H2; H3; H4; H5; H6; H7; H8; H9; H10; H11;
   H12; H13; H14; H15; H16; H17; H18; H19; H20; H21; H22; H23;
   H24; H25; H26; H27; H28; H29; H30; H31; H32; H33; H34; H35;
   H36; H37; H38; H39; H40; H41; H42; H43; H44; H45; H46; H47;
   H48; H49; H50; H51; H52; H53; H54; H55; H56; H57; H58; H59;
   H60; H61; H62; H63; H64; H65; H66; H67; H68; H69; H70; H71;
   H72; H73; H74; H75; H76; H77; H78; H79; H80].
(* Distance.hpp 1219-1296 *)
Definition g_EE (v01 v02 v03 v11 v12 v13 v21 v22 v23 v31 v32 v33 : T) : list T :=
  let t11 := - v11 + v01 in
  let t12 := - v12 + v02 in
  let t13 := - v13 + v03 in
  let t14 := - v21 + v01 in
  let t15 := - v22 + v02 in
  let t16 := - v23 + v03 in
  let t17 := - v31 + v21 in
  let t18 := - v32 + v22 in
  let t19 := - v33 + v23 in
  let t32 := t14 * t18 in
  let t33 := t15 * t17 in
  let t34 := t14 * t19 in
  let t35 := t16 * t17 in
  let t36 := t15 * t19 in
  let t37 := t16 * t18 in
  let t44 := t11 * t18 + - (t12 * t17) in
  let t45 := t11 * t19 + - (t13 * t17) in
  let t46 := t12 * t19 + - (t13 * t18) in
  let t75 := #1 / (t44 * t44 + t45 * t45 + t46 * t46) in
  let t77 := t16 * t44 + t14 * t46 + - (t15 * t45) in
  let t76 := t75 * t75 in
  let t78 := t77 * t77 in
  let t79 := (t12 * t44 * #2 + t13 * t45 * #2) * t76 * t78 in
  let t80 := (t11 * t45 * #2 + t12 * t46 * #2) * t76 * t78 in
  let t81 := (t18 * t44 * #2 + t19 * t45 * #2) * t76 * t78 in
  let t18 := (t17 * t45 * #2 + t18 * t46 * #2) * t76 * t78 in
  let t83 := (t11 * t44 * #2 + - (t13 * t46 * #2)) * t76 * t78 in
  let t19 := (t17 * t44 * #2 + - (t19 * t46 * #2)) * t76 * t78 in
  let t76 := t75 * t77 in
  let g0 := - t81 + t76 * (- t36 + t37 + t46) * #2 in
  let g1 := t19 - t76 * (- t34 + t35 + t45) * #2 in
  let g2 := t18 + t76 * (- t32 + t33 + t44) * #2 in
  let g3 := t81 + t76 * (t36 - t37) * #2 in
  let g4 := - t19 - t76 * (t34 - t35) * #2 in
  let g5 := - t18 + t76 * (t32 - t33) * #2 in
  let t17 := t12 * t16 + - (t13 * t15) in
  let g6 := t79 - t76 * (t17 + t46) * #2 in
  let t18 := t11 * t16 + - (t13 * t14) in
  let g7 := - t83 + t76 * (t18 + t45) * #2 in
  let t19 := t11 * t15 + - (t12 * t14) in
  let g8 := - t80 - t76 * (t19 + t44) * #2 in
  let g9 := - t79 + t76 * t17 * #2 in
  let g10 := t83 - t76 * t18 * #2 in
  let g11 := t80 + t76 * t19 * #2 in
  [g0; g1; g2; g3; g4; g5; g6; g7; g8; g9; g10; g11].
(* Distance.hpp 1298-1910 *)
Definition H_EE (v01 v02 v03 v11 v12 v13 v21 v22 v23 v31 v32 v33 : T) : list T :=
  let t11 := - v11 + v01 in
  let t12 := - v12 + v02 in
  let t13 := - v13 + v03 in
  let t14 := - v21 + v01 in
  let t15 := - v22 + v02 in
  let t16 := - v23 + v03 in
  let t26 := - v31 + v21 in
  let t27 := - v32 + v22 in
  let t28 := - v33 + v23 in
  let t47 := t11 * t27 in
  let t48 := t12 * t26 in
  let t49 := t11 * t28 in
  let t50 := t13 * t26 in
  let t51 := t12 * t28 in
  let t52 := t13 * t27 in
  let t53 := t14 * t27 in
  let t54 := t15 * t26 in
  let t55 := t14 * t28 in
  let t56 := t16 * t26 in
  let t57 := t15 * t28 in
  let t58 := t16 * t27 in
  let t59 := t11 * t26 * #2 in
  let t65 := t12 * t27 * #2 in
  let t73 := t13 * t28 * #2 in
  let t35 := t11 * t11 * #2 in
  let t36 := t12 * t12 * #2 in
  let t37 := t13 * t13 * #2 in
  let t38 := t26 * t26 * #2 in
  let t39 := t27 * t27 * #2 in
  let t40 := t28 * t28 * #2 in
  let t98 := t11 * t15 + - (t12 * t14) in
  let t99 := t11 * t16 + - (t13 * t14) in
  let t100 := t12 * t16 + - (t13 * t15) in
  let t101 := t47 + - t48 in
  let t103 := t49 + - t50 in
  let t105 := t51 + - t52 in
  let t107 := t53 + - t54 in
  let t108 := t55 + - t56 in
  let t109 := t57 + - t58 in
  let t137 := t98 + t101 in
  let t138 := t99 + t103 in
  let t139 := t100 + t105 in
  let t140 := t54 + - t53 + t101 in
  let t141 := t56 + - t55 + t103 in
  let t142 := t58 + - t57 + t105 in
  let t143 := t12 * t101 * #2 + t13 * t103 * #2 in
  let t144 := t11 * t103 * #2 + t12 * t105 * #2 in
  let t145 := t27 * t101 * #2 + t28 * t103 * #2 in
  let t146 := t26 * t103 * #2 + t27 * t105 * #2 in
  let t147 := t11 * t101 * #2 + - (t13 * t105 * #2) in
  let t148 := t26 * t101 * #2 + - (t28 * t105 * #2) in
  let t156 := #1 / (t101 * t101 + t103 * t103 + t105 * t105) in
  let t159 := t16 * t101 + t14 * t105 + - (t15 * t103) in
  let t157 := t156 * t156 in
  let t57 := t156 * t156 * t156 in
  let t58 := t159 * t159 in
  let t262 := t11 * t156 * t159 * #2 in
  let t263 := t12 * t156 * t159 * #2 in
  let t264 := t13 * t156 * t159 * #2 in
  let t265 := t14 * t156 * t159 * #2 in
  let t266 := t15 * t156 * t159 * #2 in
  let t267 := t16 * t156 * t159 * #2 in
  let t268 := (- v31 + v01) * t156 * t159 * #2 in
  let t269 := (- v21 + v11) * t156 * t159 * #2 in
  let t270 := (- v32 + v02) * t156 * t159 * #2 in
  let t271 := (- v22 + v12) * t156 * t159 * #2 in
  let t272 := (- v33 + v03) * t156 * t159 * #2 in
  let t273 := (- v23 + v13) * t156 * t159 * #2 in
  let t274 := (- v31 + v11) * t156 * t159 * #2 in
  let t275 := (- v32 + v12) * t156 * t159 * #2 in
  let t276 := (- v33 + v13) * t156 * t159 * #2 in
  let t277 := t26 * t156 * t159 * #2 in
  let t278 := t27 * t156 * t159 * #2 in
  let t279 := t28 * t156 * t159 * #2 in
  let t298 := t11 * t12 * t157 * t58 * #2 in
  let t299 := t11 * t13 * t157 * t58 * #2 in
  let t300 := t12 * t13 * t157 * t58 * #2 in
  let t301 := t26 * t27 * t157 * t58 * #2 in
  let t302 := t26 * t28 * t157 * t58 * #2 in
  let t303 := t27 * t28 * t157 * t58 * #2 in
  let t310 := (t35 + t36) * t157 * t58 in
  let t311 := (t35 + t37) * t157 * t58 in
  let t312 := (t36 + t37) * t157 * t58 in
  let t313 := (t38 + t39) * t157 * t58 in
  let t314 := (t38 + t40) * t157 * t58 in
  let t315 := (t39 + t40) * t157 * t58 in
  let t322 := (t59 + t65) * t157 * t58 in
  let t323 := (t59 + t73) * t157 * t58 in
  let t59 := (t65 + t73) * t157 * t58 in
  let t325 := (t47 * #2 + - (t48 * #4)) * t157 * t58 in
  let t53 := - t157 * t58 in
  let t56 := t48 * #2 - t47 * #4 in
  let t326 := t53 * t56 in
  let t327 := (t49 * #2 + - (t50 * #4)) * t157 * t58 in
  let t55 := t50 * #2 - t49 * #4 in
  let t328 := t53 * t55 in
  let t329 := (t51 * #2 + - (t52 * #4)) * t157 * t58 in
  let t54 := t52 * #2 - t51 * #4 in
  let t330 := t53 * t54 in
  let t53 := t157 * t58 in
  let t335 := t53 * t56 in
  let t337 := t53 * t55 in
  let t339 := t53 * t54 in
  let t340 := t143 * t143 * t57 * t58 * #2 in
  let t341 := t144 * t144 * t57 * t58 * #2 in
  let t342 := t145 * t145 * t57 * t58 * #2 in
  let t343 := t146 * t146 * t57 * t58 * #2 in
  let t345 := t147 * t147 * t57 * t58 * #2 in
  let t348 := t148 * t148 * t57 * t58 * #2 in
  let t36 := t98 * t143 * t157 * t159 * #2 in
  let t353 := t99 * t143 * t157 * t159 * #2 in
  let t356 := t99 * t144 * t157 * t159 * #2 in
  let t65 := t100 * t144 * t157 * t159 * #2 in
  let t358 := t107 * t143 * t157 * t159 * #2 in
  let t359 := t98 * t145 * t157 * t159 * #2 in
  let t360 := t108 * t143 * t157 * t159 * #2 in
  let t54 := t107 * t144 * t157 * t159 * #2 in
  let t362 := t99 * t145 * t157 * t159 * #2 in
  let t53 := t98 * t146 * t157 * t159 * #2 in
  let t56 := t109 * t143 * t157 * t159 * #2 in
  let t27 := t108 * t144 * t157 * t159 * #2 in
  let t55 := t100 * t145 * t157 * t159 * #2 in
  let t367 := t99 * t146 * t157 * t159 * #2 in
  let t368 := t109 * t144 * t157 * t159 * #2 in
  let t369 := t100 * t146 * t157 * t159 * #2 in
  let t38 := t107 * t145 * t157 * t159 * #2 in
  let t371 := t108 * t145 * t157 * t159 * #2 in
  let t374 := t108 * t146 * t157 * t159 * #2 in
  let t28 := t109 * t146 * t157 * t159 * #2 in
  let t377 := t98 * t147 * t157 * t159 * #2 in
  let t382 := t100 * t147 * t157 * t159 * #2 in
  let t386 := t107 * t147 * t157 * t159 * #2 in
  let t387 := t98 * t148 * t157 * t159 * #2 in
  let t103 := t108 * t147 * t157 * t159 * #2 in
  let t101 := t99 * t148 * t157 * t159 * #2 in
  let t398 := t109 * t147 * t157 * t159 * #2 in
  let t399 := t100 * t148 * t157 * t159 * #2 in
  let t403 := t107 * t148 * t157 * t159 * #2 in
  let t408 := t109 * t148 * t157 * t159 * #2 in
  let t73 := t137 * t143 * t157 * t159 * #2 in
  let t423 := t138 * t143 * t157 * t159 * #2 in
  let t424 := t138 * t144 * t157 * t159 * #2 in
  let t37 := t139 * t144 * t157 * t159 * #2 in
  let t427 := t140 * t143 * t157 * t159 * #2 in
  let t428 := t137 * t145 * t157 * t159 * #2 in
  let t16 := t140 * t144 * t157 * t159 * #2 in
  let t11 := t137 * t146 * t157 * t159 * #2 in
  let t431 := t141 * t143 * t157 * t159 * #2 in
  let t432 := t138 * t145 * t157 * t159 * #2 in
  let t433 := t141 * t144 * t157 * t159 * #2 in
  let t434 := t138 * t146 * t157 * t159 * #2 in
  let t105 := t142 * t143 * t157 * t159 * #2 in
  let t14 := t139 * t145 * t157 * t159 * #2 in
  let t437 := t142 * t144 * t157 * t159 * #2 in
  let t438 := t139 * t146 * t157 * t159 * #2 in
  let t35 := t140 * t145 * t157 * t159 * #2 in
  let t441 := t141 * t145 * t157 * t159 * #2 in
  let t442 := t141 * t146 * t157 * t159 * #2 in
  let t39 := t142 * t146 * t157 * t159 * #2 in
  let t446 := t137 * t147 * t157 * t159 * #2 in
  let t451 := t139 * t147 * t157 * t159 * #2 in
  let t455 := t140 * t147 * t157 * t159 * #2 in
  let t456 := t137 * t148 * t157 * t159 * #2 in
  let t13 := t141 * t147 * t157 * t159 * #2 in
  let t26 := t138 * t148 * t157 * t159 * #2 in
  let t467 := t142 * t147 * t157 * t159 * #2 in
  let t468 := t139 * t148 * t157 * t159 * #2 in
  let t472 := t140 * t148 * t157 * t159 * #2 in
  let t477 := t142 * t148 * t157 * t159 * #2 in
  let t47 := t143 * t144 * t57 * t58 * #2 in
  let t15 := t143 * t145 * t57 * t58 * #2 in
  let t491 := t143 * t146 * t57 * t58 * #2 in
  let t492 := t144 * t145 * t57 * t58 * #2 in
  let t12 := t144 * t146 * t57 * t58 * #2 in
  let t40 := t145 * t146 * t57 * t58 * #2 in
  let t495 := t143 * t147 * t57 * t58 * #2 in
  let t497 := t144 * t147 * t57 * t58 * #2 in
  let t499 := t143 * t148 * t57 * t58 * #2 in
  let t500 := t145 * t147 * t57 * t58 * #2 in
  let t503 := t146 * t147 * t57 * t58 * #2 in
  let t504 := t144 * t148 * t57 * t58 * #2 in
  let t506 := t145 * t148 * t57 * t58 * #2 in
  let t508 := t146 * t148 * t57 * t58 * #2 in
  let t57 := t147 * t148 * t57 * t58 * #2 in
  let t550 := t98 * t109 * t156 * #2 + - t266 + t337 + t359 + t368 + t492 in
  let t568 := t108 * t137 * t156 * #2 + - t268 + t330 + t27 + t456 + t504 in
  let t519_tmp := t139 * t143 * t157 * t159 in
  let b_t519_tmp := t100 * t143 * t157 * t159 in
  let t519 := - (t100 * t139 * t156 * #2) + t312 + - t340 + b_t519_tmp * #2 + t519_tmp * #2 in
  let t520_tmp := t140 * t146 * t157 * t159 in
  let b_t520_tmp := t107 * t146 * t157 * t159 in
  let t520 := t107 * t140 * t156 * #2 + t313 + - t343 + b_t520_tmp * #2 + - (t520_tmp * #2) in
  let t521_tmp := t142 * t145 * t157 * t159 in
  let b_t521_tmp := t109 * t145 * t157 * t159 in
  let t521 := t109 * t142 * t156 * #2 + t315 + - t342 + - (b_t521_tmp * #2) + t521_tmp * #2 in
  let t522_tmp := t137 * t144 * t157 * t159 in
  let b_t522_tmp := t98 * t144 * t157 * t159 in
  let t522 := - (t98 * t137 * t156 * #2) + t310 + - t341 + - (b_t522_tmp * #2) + - (t522_tmp * #2) in
  let t523_tmp := t138 * t147 * t157 * t159 in
  let b_t523_tmp := t99 * t147 * t157 * t159 in
  let t523 := - (t99 * t138 * t156 * #2) + t311 + - t345 + b_t523_tmp * #2 + t523_tmp * #2 in
  let t524_tmp := t141 * t148 * t157 * t159 in
  let b_t524_tmp := t108 * t148 * t157 * t159 in
  let t524 := t108 * t141 * t156 * #2 + t314 + - t348 + - (b_t524_tmp * #2) + t524_tmp * #2 in
  let t525 := t98 * t100 * t156 * #2 + t299 + t65 + - t36 + - t47 in
  let t526 := t107 * t109 * t156 * #2 + t302 + t38 + - t28 + - t40 in
  let t527 := - (t98 * t99 * t156 * #2) + t300 + t377 + - t356 + t497 in
  let t528 := - (t99 * t100 * t156 * #2) + t298 + t353 + t382 + - t495 in
  let t529 := - (t107 * t108 * t156 * #2) + t303 + t374 + - t403 + t508 in
  let t530 := - (t108 * t109 * t156 * #2) + t301 + - t371 + - t408 + - t506 in
  let t531 := t98 * t107 * t156 * #2 + t322 + t54 + - t53 + - t12 in
  let t532 := t100 * t109 * t156 * #2 + t59 + t55 + - t56 + - t15 in
  let t533 := t99 * t108 * t156 * #2 + t323 + t101 + - t103 + - t57 in
  let t534 := t98 * t140 * t156 * #2 + - t322 + t53 + t16 + t12 in
  let t535 := - (t107 * t137 * t156 * #2) + - t322 + - t54 + t11 + t12 in
  let t536 := t100 * t142 * t156 * #2 + - t59 + - t55 + - t105 + t15 in
  let t537 := - (t109 * t139 * t156 * #2) + - t59 + t56 + - t14 + t15 in
  let t538 := t99 * t141 * t156 * #2 + - t323 + - t101 + - t13 + t57 in
  let t539 := - (t108 * t138 * t156 * #2) + - t323 + t103 + - t26 + t57 in
  let t540 := t137 * t139 * t156 * #2 + t299 + t37 + - t73 + - t47 in
  let t148 := t140 * t142 * t156 * #2 + t302 + t39 + - t35 + - t40 in
  let t542 := - (t137 * t138 * t156 * #2) + t300 + t446 + - t424 + t497 in
  let t543 := - (t138 * t139 * t156 * #2) + t298 + t423 + t451 + - t495 in
  let t544 := - (t140 * t141 * t156 * #2) + t303 + t472 + - t442 + t508 in
  let t53 := - (t141 * t142 * t156 * #2) + t301 + t441 + t477 + - t506 in
  let t157 := - (t139 * t142 * t156 * #2) + t59 + t105 + t14 + - t15 in
  let t159 := - (t137 * t140 * t156 * #2) + t322 + - t16 + - t11 + - t12 in
  let t147 := - (t138 * t141 * t156 * #2) + t323 + t13 + t26 + - t57 in
  let t146 := t100 * t107 * t156 * #2 + t266 + t327 + - t358 + - t369 + t491 in
  let t145 := - (t99 * t107 * t156 * #2) + - t265 + t329 + t367 + t386 + - t503 in
  let t144 := - (t100 * t108 * t156 * #2) + - t267 + t325 + t360 + - t399 + t499 in
  let t143 := - (t99 * t109 * t156 * #2) + t267 + t335 + - t362 + t398 + t500 in
  let t52 := - (t98 * t108 * t156 * #2) + t265 + t339 + - t27 + - t387 + - t504 in
  let t51 := t109 * t140 * t156 * #2 + - t278 + - t302 + t28 + t35 + t40 in
  let t50 := - (t98 * t139 * t156 * #2) + t263 + - t299 + t36 + - t37 + t47 in
  let t49 := t107 * t142 * t156 * #2 + t278 + - t302 + - t38 + - t39 + t40 in
  let t48 := - (t100 * t137 * t156 * #2) + - t263 + - t299 + - t65 + t73 + t47 in
  let t47 := t99 * t137 * t156 * #2 + t262 + - t300 + t356 + - t446 + - t497 in
  let t73 := t100 * t138 * t156 * #2 + t264 + - t298 + - t382 + - t423 + t495 in
  let t65 := - (t109 * t141 * t156 * #2) + t279 + - t301 + t408 + - t441 + t506 in
  let t59 := t98 * t138 * t156 * #2 + - t262 + - t300 + - t377 + t424 + - t497 in
  let t40 := t99 * t139 * t156 * #2 + - t264 + - t298 + - t353 + - t451 + t495 in
  let t39 := - (t107 * t141 * t156 * #2) + - t277 + - t303 + t403 + t442 + - t508 in
  let t38 := - (t108 * t142 * t156 * #2) + - t279 + - t301 + t371 + - t477 + t506 in
  let t37 := - (t108 * t140 * t156 * #2) + t277 + - t303 + - t374 + - t472 + - t508 in
  let t36 := t98 * t142 * t156 * #2 + t271 + t328 + - t359 + t437 + - t492 in
  let t35 := - (t109 * t137 * t156 * #2) + t270 + t328 + - t368 + - t428 + - t492 in
  let t28 := t100 * t140 * t156 * #2 + - t271 + - t327 + t369 + - t427 + - t491 in
  let t27 := - (t98 * t141 * t156 * #2) + - t269 + t330 + t387 + - t433 + t504 in
  let t26 := t109 * t138 * t156 * #2 + - t272 + t326 + - t398 + t432 + - t500 in
  let t13 := - (t107 * t139 * t156 * #2) + - t270 + - t327 + t358 + t438 + - t491 in
  let t12 := - (t99 * t142 * t156 * #2) + - t273 + t326 + t362 + t467 + - t500 in
  let t11 := - (t99 * t140 * t156 * #2) + t269 + - t329 + - t367 + t455 + t503 in
  let t16 := t107 * t138 * t156 * #2 + t268 + - t329 + - t386 + - t434 + t503 in
  let t15 := - (t100 * t141 * t156 * #2) + t273 + - t325 + t399 + t431 + - t499 in
  let t14 := t108 * t139 * t156 * #2 + t272 + - t325 + - t360 + t468 + - t499 in
  let t105 := - (t139 * t140 * t156 * #2) + t275 + t327 + t427 + - t438 + t491 in
  let t103 := t138 * t140 * t156 * #2 + - t274 + t329 + t434 + - t455 + - t503 in
  let t101 := - (t137 * t142 * t156 * #2) + - t275 + t337 + t428 + - t437 + t492 in
  let t58 := t139 * t141 * t156 * #2 + - t276 + t325 + - t431 + - t468 + t499 in
  let t57 := t137 * t141 * t156 * #2 + t274 + t339 + t433 + - t456 + - t504 in
  let t56 := t138 * t142 * t156 * #2 + t276 + t335 + - t432 + - t467 + t500 in
  let t55 := - t315 + t342 in
  let H0 := t55 + t142 * t142 * t156 * #2 - t521_tmp * #4 in
  let H1 := t53 in
  let H2 := t148 in
  let H3 := t521 in
  let H4 := t38 in
  let H5 := t49 in
  let H6 := t157 in
  let H7 := t56 in
  let H8 := t101 in
  let H9 := t536 in
  let H10 := t12 in
  let H11 := t36 in
  let H12 := t53 in
  let t54 := - t314 + t348 in
  let H13 := t54 + t141 * t141 * t156 * #2 - t524_tmp * #4 in
  let H14 := t544 in
  let H15 := t65 in
  let H16 := t524 in
  let H17 := t39 in
  let H18 := t58 in
  let H19 := t147 in
  let H20 := t57 in
  let H21 := t15 in
  let H22 := t538 in
  let H23 := t27 in
  let H24 := t148 in
  let H25 := t544 in
  let t53 := - t313 + t343 in
  let H26 := t53 + t140 * t140 * t156 * #2 + t520_tmp * #4 in
  let H27 := t51 in
  let H28 := t37 in
  let H29 := t520 in
  let H30 := t105 in
  let H31 := t103 in
  let H32 := t159 in
  let H33 := t28 in
  let H34 := t11 in
  let H35 := t534 in
  let H36 := t521 in
  let H37 := t65 in
  let H38 := t51 in
  let H39 := t55 + t109 * t109 * t156 * #2 + b_t521_tmp * #4 in
  let H40 := t530 in
  let H41 := t526 in
  let H42 := t537 in
  let H43 := t26 in
  let H44 := t35 in
  let H45 := t532 in
  let H46 := t143 in
  let H47 := t550 in
  let H48 := t38 in
  let H49 := t524 in
  let H50 := t37 in
  let H51 := t530 in
  let H52 := t54 + t108 * t108 * t156 * #2 + b_t524_tmp * #4 in
  let H53 := t529 in
  let H54 := t14 in
  let H55 := t539 in
  let H56 := t568 in
  let H57 := t144 in
  let H58 := t533 in
  let H59 := t52 in
  let H60 := t49 in
  let H61 := t39 in
  let H62 := t520 in
  let H63 := t526 in
  let H64 := t529 in
  let H65 := t53 + t107 * t107 * t156 * #2 - b_t520_tmp * #4 in
  let H66 := t13 in
  let H67 := t16 in
  let H68 := t535 in
  let H69 := t146 in
  let H70 := t145 in
  let H71 := t531 in
  let H72 := t157 in
  let H73 := t58 in
  let H74 := t105 in
  let H75 := t537 in
  let H76 := t14 in
  let H77 := t13 in
  let t55 := - t312 + t340 in
  let H78 := t55 + t139 * t139 * t156 * #2 - t519_tmp * #4 in
  let H79 := t543 in
  let H80 := t540 in
  let H81 := t519 in
  let H82 := t40 in
  let H83 := t50 in
  let H84 := t56 in
  let H85 := t147 in
  let H86 := t103 in
  let H87 := t26 in
  let H88 := t539 in
  let H89 := t16 in
  let H90 := t543 in
  let t54 := - t311 + t345 in
  let H91 := t54 + t138 * t138 * t156 * #2 - t523_tmp * #4 in
  let H92 := t542 in
  let H93 := t73 in
  let H94 := t523 in
  let H95 := t59 in
  let H96 := t101 in
  let H97 := t57 in
  let H98 := t159 in
  let H99 := t35 in
  let H100 := t568 in
  let H101 := t535 in
  let H102 := t540 in
  let H103 := t542 in
  let t53 := - t310 + t341 in
  let H104 := t53 + t137 * t137 * t156 * #2 + t522_tmp * #4 in
  let H105 := t48 in
  let H106 := t47 in
  let H107 := t522 in
  let H108 := t536 in
  let H109 := t15 in
  let H110 := t28 in
  let H111 := t532 in
  let H112 := t144 in
  let H113 := t146 in
  let H114 := t519 in
  let H115 := t73 in
  let H116 := t48 in
  let H117 := t55 + t100 * t100 * t156 * #2 - b_t519_tmp * #4 in
  let H118 := t528 in
  let H119 := t525 in
  let H120 := t12 in
  let H121 := t538 in
  let H122 := t11 in
  let H123 := t143 in
  let H124 := t533 in
  let H125 := t145 in
  let H126 := t40 in
  let H127 := t523 in
  let H128 := t47 in
  let H129 := t528 in
  let H130 := t54 + t99 * t99 * t156 * #2 - b_t523_tmp * #4 in
  let H131 := t527 in
  let H132 := t36 in
  let H133 := t27 in
  let H134 := t534 in
  let H135 := t550 in
  let H136 := t52 in
  let H137 := t531 in
  let H138 := t50 in
  let H139 := t59 in
  let H140 := t522 in
  let H141 := t525 in
  let H142 := t527 in
  let H143 := t53 + t98 * t98 * t156 * #2 + b_t522_tmp * #4 in
  [H0; H1; H2; H3; H4; H5; H6; H7; H8; H9; H10; H11;
   H12; H13; H14; H15; H16; H17; H18; H19; H20; H21; H22; H23;
   H24; H25; H26; H27; H28; H29; H30; H31; H32; H33; H34; H35;
   H36; H37; H38; H39; H40; H41; H42; H43; H44; H45; H46; H47;
   H48; H49; H50; H51; H52; H53; H54; H55; H56; H57; H58; H59;
   H60; H61; H62; H63; H64; H65; H66; H67; H68; H69; H70; H71;
   H72; H73; H74; H75; H76; H77; H78; H79; H80; H81; H82; H83;
   H84; H85; H86; H87; H88; H89; H90; H91; H92; H93; H94; H95;
   H96; H97; H98; H99; H100; H101; H102; H103; H104; H105; H106; H107;
   H108; H109; H110; H111; H112; H113; H114; H115; H116; H117; H118; H119;
   H120; H121; H122; H123; H124; H125; H126; H127; H128; H129; H130; H131;
   H132; H133; H134; H135; H136; H137; H138; H139; H140; H141; H142; H143].
(* Distance.hpp 2501-2559 *)
Definition g_EECN2 (v01 v02 v03 v11 v12 v13 v21 v22 v23 v31 v32 v33 : T) : list T :=
  let t8 := - v11 + v01 in
  let t9 := - v12 + v02 in
  let t10 := - v13 + v03 in
  let t11 := - v31 + v21 in
  let t12 := - v32 + v22 in
  let t13 := - v33 + v23 in
  let t23 := t8 * t12 + - (t9 * t11) in
  let t24 := t8 * t13 + - (t10 * t11) in
  let t25 := t9 * t13 + - (t10 * t12) in
  let t26 := t8 * t23 * #2 in
  let t27 := t9 * t23 * #2 in
  let t28 := t8 * t24 * #2 in
  let t29 := t10 * t24 * #2 in
  let t30 := t9 * t25 * #2 in
  let t31 := t10 * t25 * #2 in
  let t32 := t11 * t23 * #2 in
  let t33 := t12 * t23 * #2 in
  let t23 := t11 * t24 * #2 in
  let t10 := t13 * t24 * #2 in
  let t9 := t12 * t25 * #2 in
  let t8 := t13 * t25 * #2 in
  let g0 := t33 + t10 in
  let g1 := - t32 + t8 in
  let g2 := - t23 - t9 in
  let g3 := - t33 - t10 in
  let g4 := t32 - t8 in
  let g5 := t23 + t9 in
  let g6 := - t27 - t29 in
  let g7 := t26 - t31 in
  let g8 := t28 + t30 in
  let g9 := t27 + t29 in
  let g10 := - t26 + t31 in
  let g11 := - t28 - t30 in
  [g0; g1; g2; g3; g4; g5; g6; g7; g8; g9; g10; g11].
(* Distance.hpp 2561-2830 *)
Definition H_EECN2 (v01 v02 v03 v11 v12 v13 v21 v22 v23 v31 v32 v33 : T) : list T :=
  let t8 := - v11 + v01 in
  let t9 := - v12 + v02 in
  let t10 := - v13 + v03 in
  let t11 := - v31 + v21 in
  let t12 := - v32 + v22 in
  let t13 := - v33 + v23 in
  let t32 := t8 * t9 * #2 in
  let t33 := t8 * t10 * #2 in
  let t34 := t9 * t10 * #2 in
  let t35 := t8 * t11 * #2 in
  let t48 := t8 * t12 in
  let t36 := t48 * #2 in
  let t49 := t9 * t11 in
  let t37 := t49 * #2 in
  let t38 := t48 * #4 in
  let t48 := t8 * t13 in
  let t39 := t48 * #2 in
  let t40 := t49 * #4 in
  let t41 := t9 * t12 * #2 in
  let t49 := t10 * t11 in
  let t42 := t49 * #2 in
  let t43 := t48 * #4 in
  let t48 := t9 * t13 in
  let t44 := t48 * #2 in
  let t45 := t49 * #4 in
  let t49 := t10 * t12 in
  let t46 := t49 * #2 in
  let t47 := t48 * #4 in
  let t48 := t49 * #4 in
  let t49 := t10 * t13 * #2 in
  let t50 := t11 * t12 * #2 in
  let t51 := t11 * t13 * #2 in
  let t52 := t12 * t13 * #2 in
  let t20 := t8 * t8 * #2 in
  let t9 := t9 * t9 * #2 in
  let t8 := t10 * t10 * #2 in
  let t23 := t11 * t11 * #2 in
  let t24 := t12 * t12 * #2 in
  let t25 := t13 * t13 * #2 in
  let t86 := t35 + t41 in
  let t87 := t35 + t49 in
  let t88 := t41 + t49 in
  let t74 := t20 + t9 in
  let t75 := t20 + t8 in
  let t76 := t9 + t8 in
  let t77 := t23 + t24 in
  let t78 := t23 + t25 in
  let t79 := t24 + t25 in
  let t89 := t40 + - t36 in
  let t90 := t36 + - t40 in
  let t91 := t37 + - t38 in
  let t92 := t38 + - t37 in
  let t93 := t45 + - t39 in
  let t94 := t39 + - t45 in
  let t95 := t42 + - t43 in
  let t37 := t43 + - t42 in
  let t39 := t48 + - t44 in
  let t45 := t44 + - t48 in
  let t38 := t46 + - t47 in
  let t40 := t47 + - t46 in
  let t36 := - t35 + - t41 in
  let t13 := - t35 + - t49 in
  let t11 := - t41 + - t49 in
  let t12 := - t20 + - t9 in
  let t10 := - t20 + - t8 in
  let t8 := - t9 + - t8 in
  let t9 := - t23 + - t24 in
  let t49 := - t23 + - t25 in
  let t48 := - t24 + - t25 in
  let H0 := t79 in
  let H1 := - t50 in
  let H2 := - t51 in
  let H3 := t48 in
  let H4 := t50 in
  let H5 := t51 in
  let H6 := t11 in
  let H7 := t92 in
  let H8 := t37 in
  let H9 := t88 in
  let H10 := t91 in
  let H11 := t95 in
  let H12 := - t50 in
  let H13 := t78 in
  let H14 := - t52 in
  let H15 := t50 in
  let H16 := t49 in
  let H17 := t52 in
  let H18 := t89 in
  let H19 := t13 in
  let H20 := t40 in
  let H21 := t90 in
  let H22 := t87 in
  let H23 := t38 in
  let H24 := - t51 in
  let H25 := - t52 in
  let H26 := t77 in
  let H27 := t51 in
  let H28 := t52 in
  let H29 := t9 in
  let H30 := t93 in
  let H31 := t39 in
  let H32 := t36 in
  let H33 := t94 in
  let H34 := t45 in
  let H35 := t86 in
  let H36 := t48 in
  let H37 := t50 in
  let H38 := t51 in
  let H39 := t79 in
  let H40 := - t50 in
  let H41 := - t51 in
  let H42 := t88 in
  let H43 := t91 in
  let H44 := t95 in
  let H45 := t11 in
  let H46 := t92 in
  let H47 := t37 in
  let H48 := t50 in
  let H49 := t49 in
  let H50 := t52 in
  let H51 := - t50 in
  let H52 := t78 in
  let H53 := - t52 in
  let H54 := t90 in
  let H55 := t87 in
  let H56 := t38 in
  let H57 := t89 in
  let H58 := t13 in
  let H59 := t40 in
  let H60 := t51 in
  let H61 := t52 in
  let H62 := t9 in
  let H63 := - t51 in
  let H64 := - t52 in
  let H65 := t77 in
  let H66 := t94 in
  let H67 := t45 in
  let H68 := t86 in
  let H69 := t93 in
  let H70 := t39 in
  let H71 := t36 in
  let H72 := t11 in
  let H73 := t89 in
  let H74 := t93 in
  let H75 := t88 in
  let H76 := t90 in
  let H77 := t94 in
  let H78 := t76 in
  let H79 := - t32 in
  let H80 := - t33 in
  let H81 := t8 in
  let H82 := t32 in
  let H83 := t33 in
  let H84 := t92 in
  let H85 := t13 in
  let H86 := t39 in
  let H87 := t91 in
  let H88 := t87 in
  let H89 := t45 in
  let H90 := - t32 in
  let H91 := t75 in
  let H92 := - t34 in
  let H93 := t32 in
  let H94 := t10 in
  let H95 := t34 in
  let H96 := t37 in
  let H97 := t40 in
  let H98 := t36 in
  let H99 := t95 in
  let H100 := t38 in
  let H101 := t86 in
  let H102 := - t33 in
  let H103 := - t34 in
  let H104 := t74 in
  let H105 := t33 in
  let H106 := t34 in
  let H107 := t12 in
  let H108 := t88 in
  let H109 := t90 in
  let H110 := t94 in
  let H111 := t11 in
  let H112 := t89 in
  let H113 := t93 in
  let H114 := t8 in
  let H115 := t32 in
  let H116 := t33 in
  let H117 := t76 in
  let H118 := - t32 in
  let H119 := - t33 in
  let H120 := t91 in
  let H121 := t87 in
  let H122 := t45 in
  let H123 := t92 in
  let H124 := t13 in
  let H125 := t39 in
  let H126 := t32 in
  let H127 := t10 in
  let H128 := t34 in
  let H129 := - t32 in
  let H130 := t75 in
  let H131 := - t34 in
  let H132 := t95 in
  let H133 := t38 in
  let H134 := t86 in
  let H135 := t37 in
  let H136 := t40 in
  let H137 := t36 in
  let H138 := t33 in
  let H139 := t34 in
  let H140 := t12 in
  let H141 := - t33 in
  let H142 := - t34 in
  let H143 := t74 in
  [H0; H1; H2; H3; H4; H5; H6; H7; H8; H9; H10; H11;
   H12; H13; H14; H15; H16; H17; H18; H19; H20; H21; H22; H23;
   H24; H25; H26; H27; H28; H29; H30; H31; H32; H33; H34; H35;
   H36; H37; H38; H39; H40; H41; H42; H43; H44; H45; H46; H47;
   H48; H49; H50; H51; H52; H53; H54; H55; H56; H57; H58; H59;
   H60; H61; H62; H63; H64; H65; H66; H67; H68; H69; H70; H71;
   H72; H73; H74; H75; H76; H77; H78; H79; H80; H81; H82; H83;
   H84; H85; H86; H87; H88; H89; H90; H91; H92; H93; H94; H95;
   H96; H97; H98; H99; H100; H101; H102; H103; H104; H105; H106; H107;
   H108; H109; H110; H111; H112; H113; H114; H115; H116; H117; H118; H119;
   H120; H121; H122; H123; H124; H125; H126; H127; H128; H129; H130; H131;
   H132; H133; H134; H135; H136; H137; H138; H139; H140; H141; H142; H143].
(* Distance.hpp 2949-3012 *)
Definition g_PT (v01 v02 v03 v11 v12 v13 v21 v22 v23 v31 v32 v33 : T) : list T :=
  let t11 := - v11 + v01 in
  let t12 := - v12 + v02 in
  let t13 := - v13 + v03 in
  let t14 := - v21 + v11 in
  let t15 := - v22 + v12 in
  let t16 := - v23 + v13 in
  let t17 := - v31 + v11 in
  let t18 := - v32 + v12 in
  let t19 := - v33 + v13 in
  let t20 := - v31 + v21 in
  let t21 := - v32 + v22 in
  let t22 := - v33 + v23 in
  let t32 := t14 * t18 + - (t15 * t17) in
  let t33 := t14 * t19 + - (t16 * t17) in
  let t34 := t15 * t19 + - (t16 * t18) in
  let t43 := #1 / (t32 * t32 + t33 * t33 + t34 * t34) in
  let t45 := t13 * t32 + t11 * t34 + - (t12 * t33) in
  let t44 := t43 * t43 in
  let t46 := t45 * t45 in
  let g0 := t34 * t43 * t45 * #2 in
  let g1 := t33 * t43 * t45 * #(-2) in
  let g2 := t32 * t43 * t45 * #2 in
  let t45 := t45 * t43 in
  let g3 := - t44 * t46 * (t21 * t32 * #2 + t22 * t33 * #2) - t45 * (t34 + t12 * t22 - t13 * t21) * #2 in
  let t43 := t44 * t46 in
  let g4 := t43 * (t20 * t32 * #2 - t22 * t34 * #2) + t45 * (t33 + t11 * t22 - t13 * t20) * #2 in
  let g5 := t43 * (t20 * t33 * #2 + t21 * t34 * #2) - t45 * (t32 + t11 * t21 - t12 * t20) * #2 in
  let g6 := t45 * (t12 * t19 - t13 * t18) * #2 + t43 * (t18 * t32 * #2 + t19 * t33 * #2) in
  let g7 := t45 * (t11 * t19 - t13 * t17) * #(-2) - t43 * (t17 * t32 * #2 - t19 * t34 * #2) in
  let g8 := t45 * (t11 * t18 - t12 * t17) * #2 - t43 * (t17 * t33 * #2 + t18 * t34 * #2) in
  let g9 := t45 * (t12 * t16 - t13 * t15) * #(-2) - t43 * (t15 * t32 * #2 + t16 * t33 * #2) in
  let g10 := t45 * (t11 * t16 - t13 * t14) * #2 + t43 * (t14 * t32 * #2 - t16 * t34 * #2) in
  let g11 := t45 * (t11 * t15 - t12 * t14) * #(-2) + t43 * (t14 * t33 * #2 + t15 * t34 * #2) in
  [g0; g1; g2; g3; g4; g5; g6; g7; g8; g9; g10; g11].
(* Distance.hpp 3014-3591 *)
Definition H_PT (v01 v02 v03 v11 v12 v13 v21 v22 v23 v31 v32 v33 : T) : list T :=
  let t11 := - v11 + v01 in
  let t12 := - v12 + v02 in
  let t13 := - v13 + v03 in
  let t18 := - v21 + v11 in
  let t20 := - v22 + v12 in
  let t22 := - v23 + v13 in
  let t23 := - v31 + v11 in
  let t24 := - v32 + v12 in
  let t25 := - v33 + v13 in
  let t26 := - v31 + v21 in
  let t27 := - v32 + v22 in
  let t28 := - v33 + v23 in
  let t65 := t18 * t24 in
  let t66 := t20 * t23 in
  let t67 := t18 * t25 in
  let t68 := t22 * t23 in
  let t69 := t20 * t25 in
  let t70 := t22 * t24 in
  let t71 := t18 * t23 * #2 in
  let t77 := t20 * t24 * #2 in
  let t85 := t22 * t25 * #2 in
  let t86 := t18 * t26 * #2 in
  let t90 := t20 * t27 * #2 in
  let t94 := t22 * t28 * #2 in
  let t95 := t23 * t26 * #2 in
  let t99 := t24 * t27 * #2 in
  let t103 := t25 * t28 * #2 in
  let t38 := t18 * t18 * #2 in
  let t39 := t20 * t20 * #2 in
  let t40 := t22 * t22 * #2 in
  let t41 := t23 * t23 * #2 in
  let t42 := t24 * t24 * #2 in
  let t43 := t25 * t25 * #2 in
  let t44 := t26 * t26 * #2 in
  let t45 := t27 * t27 * #2 in
  let t46 := t28 * t28 * #2 in
  let t72 := t65 * #2 in
  let t73 := t66 * #2 in
  let t75 := t67 * #2 in
  let t78 := t68 * #2 in
  let t80 := t69 * #2 in
  let t82 := t70 * #2 in
  let t125 := t11 * t20 + - (t12 * t18) in
  let t126 := t11 * t22 + - (t13 * t18) in
  let t127 := t12 * t22 + - (t13 * t20) in
  let t128 := t11 * t24 + - (t12 * t23) in
  let t129 := t11 * t25 + - (t13 * t23) in
  let t130 := t12 * t25 + - (t13 * t24) in
  let t131 := t65 + - t66 in
  let t133 := t67 + - t68 in
  let t135 := t69 + - t70 in
  let t149 := t131 * t131 in
  let t150 := t133 * t133 in
  let t151 := t135 * t135 in
  let t189 := t11 * t27 + - (t12 * t26) + t131 in
  let t190 := t11 * t28 + - (t13 * t26) + t133 in
  let t191 := t12 * t28 + - (t13 * t27) + t135 in
  let t192 := t20 * t131 * #2 + t22 * t133 * #2 in
  let t193 := t18 * t133 * #2 + t20 * t135 * #2 in
  let t194 := t24 * t131 * #2 + t25 * t133 * #2 in
  let t195 := t23 * t133 * #2 + t24 * t135 * #2 in
  let t196 := t27 * t131 * #2 + t28 * t133 * #2 in
  let t197 := t26 * t133 * #2 + t27 * t135 * #2 in
  let t198 := t18 * t131 * #2 + - (t22 * t135 * #2) in
  let t199 := t23 * t131 * #2 + - (t25 * t135 * #2) in
  let t200 := t26 * t131 * #2 + - (t28 * t135 * #2) in
  let t202 := #1 / (t149 + t150 + t151) in
  let t205 := t13 * t131 + t11 * t135 + - (t12 * t133) in
  let t203 := t202 * t202 in
  let t204 := t202 * t202 * t202 in
  let t206 := t205 * t205 in
  let t241 := t131 * t135 * t202 * #2 in
  let t309 := t11 * t202 * t205 * #2 in
  let t310 := t12 * t202 * t205 * #2 in
  let t13 := t13 * t202 * t205 * #2 in
  let t312 := (- v21 + v01) * t202 * t205 * #2 in
  let t313 := (- v22 + v02) * t202 * t205 * #2 in
  let t314 := (- v23 + v03) * t202 * t205 * #2 in
  let t315 := (- v31 + v01) * t202 * t205 * #2 in
  let t316 := t18 * t202 * t205 * #2 in
  let t317 := (- v32 + v02) * t202 * t205 * #2 in
  let t318 := t20 * t202 * t205 * #2 in
  let t319 := (- v33 + v03) * t202 * t205 * #2 in
  let t11 := t22 * t202 * t205 * #2 in
  let t321 := t23 * t202 * t205 * #2 in
  let t322 := t24 * t202 * t205 * #2 in
  let t323 := t25 * t202 * t205 * #2 in
  let t324 := t26 * t202 * t205 * #2 in
  let t325 := t27 * t202 * t205 * #2 in
  let t12 := t28 * t202 * t205 * #2 in
  let t261 := - (t131 * t133 * t202 * #2) in
  let t262 := - (t133 * t135 * t202 * #2) in
  let t599 := t130 * t135 * t202 * #2 + t135 * t194 * t203 * t205 * #2 in
  let t600 := - (t125 * t131 * t202 * #2) + t131 * t193 * t203 * t205 * #2 in
  let t602 := t129 * t133 * t202 * #2 + t133 * t199 * t203 * t205 * #2 in
  let t605 := - (t131 * t189 * t202 * #2) + t131 * t197 * t203 * t205 * #2 in
  let t609 := t127 * t133 * t202 * #2 + - t11 + t133 * t192 * t203 * t205 * #2 in
  let t610 := t126 * t135 * t202 * #2 + t11 + t135 * t198 * t203 * t205 * #2 in
  let t611 := t130 * t131 * t202 * #2 + - t322 + t131 * t194 * t203 * t205 * #2 in
  let t613 := t126 * t131 * t202 * #2 + - t316 + t131 * t198 * t203 * t205 * #2 in
  let t615 := - (t125 * t135 * t202 * #2) + - t318 + t135 * t193 * t203 * t205 * #2 in
  let t616 := - (t128 * t133 * t202 * #2) + - t321 + t133 * t195 * t203 * t205 * #2 in
  let t621 := t133 * t191 * t202 * #2 + - t12 + t133 * t196 * t203 * t205 * #2 in
  let t622 := t135 * t190 * t202 * #2 + t12 + t135 * t200 * t203 * t205 * #2 in
  let t623 := t131 * t190 * t202 * #2 + - t324 + t131 * t200 * t203 * t205 * #2 in
  let t625 := - (t135 * t189 * t202 * #2) + - t325 + t135 * t197 * t203 * t205 * #2 in
  let t645 := t127 * t129 * t202 * #2 + - t13 + (t72 + - (t66 * #4)) * t203 * t206 + t129 * t192 * t203 * t205 * #2 + t127 * t199 * t203 * t205 * #2 + t192 * t199 * t204 * t206 * #2 in
  let t646_tmp := t203 * t206 in
  let t646 := t126 * t130 * t202 * #2 + t13 + t646_tmp * (t73 - t65 * #4) + t126 * t194 * t203 * t205 * #2 + t130 * t198 * t203 * t205 * #2 + t194 * t198 * t204 * t206 * #2 in
  let t601 := t128 * t131 * t202 * #2 + - (t131 * t195 * t203 * t205 * #2) in
  let t603 := - (t127 * t135 * t202 * #2) + - (t135 * t192 * t203 * t205 * #2) in
  let t604 := - (t126 * t133 * t202 * #2) + - (t133 * t198 * t203 * t205 * #2) in
  let t606 := - (t135 * t191 * t202 * #2) + - (t135 * t196 * t203 * t205 * #2) in
  let t607 := - (t133 * t190 * t202 * #2) + - (t133 * t200 * t203 * t205 * #2) in
  let t608 := t125 * t133 * t202 * #2 + t316 + - (t133 * t193 * t203 * t205 * #2) in
  let t612 := t128 * t135 * t202 * #2 + t322 + - (t135 * t195 * t203 * t205 * #2) in
  let t614 := - (t127 * t131 * t202 * #2) + t318 + - (t131 * t192 * t203 * t205 * #2) in
  let t617 := - (t130 * t133 * t202 * #2) + t323 + - (t133 * t194 * t203 * t205 * #2) in
  let t618 := - (t129 * t131 * t202 * #2) + t321 + - (t131 * t199 * t203 * t205 * #2) in
  let t619 := - (t129 * t135 * t202 * #2) + - t323 + - (t135 * t199 * t203 * t205 * #2) in
  let t620 := t133 * t189 * t202 * #2 + t324 + - (t133 * t197 * t203 * t205 * #2) in
  let t624 := - (t131 * t191 * t202 * #2) + t325 + - (t131 * t196 * t203 * t205 * #2) in
  let t626 := t125 * t127 * t202 * #2 + t18 * t22 * t203 * t206 * #2 + t125 * t192 * t203 * t205 * #2 + - (t127 * t193 * t203 * t205 * #2) + - (t192 * t193 * t204 * t206 * #2) in
  let t627 := t128 * t130 * t202 * #2 + t23 * t25 * t203 * t206 * #2 + t128 * t194 * t203 * t205 * #2 + - (t130 * t195 * t203 * t205 * #2) + - (t194 * t195 * t204 * t206 * #2) in
  let t628 := - (t125 * t126 * t202 * #2) + t20 * t22 * t203 * t206 * #2 + t126 * t193 * t203 * t205 * #2 + - (t125 * t198 * t203 * t205 * #2) + t193 * t198 * t204 * t206 * #2 in
  let t629 := - (t128 * t129 * t202 * #2) + t24 * t25 * t203 * t206 * #2 + t129 * t195 * t203 * t205 * #2 + - (t128 * t199 * t203 * t205 * #2) + t195 * t199 * t204 * t206 * #2 in
  let t630 := - (t126 * t127 * t202 * #2) + t18 * t20 * t203 * t206 * #2 + - (t126 * t192 * t203 * t205 * #2) + - (t127 * t198 * t203 * t205 * #2) + - (t192 * t198 * t204 * t206 * #2) in
  let t631 := - (t129 * t130 * t202 * #2) + t23 * t24 * t203 * t206 * #2 + - (t129 * t194 * t203 * t205 * #2) + - (t130 * t199 * t203 * t205 * #2) + - (t194 * t199 * t204 * t206 * #2) in
  let t632 := - (t125 * t128 * t202 * #2) + (t71 + t77) * t203 * t206 + t128 * t193 * t203 * t205 * #2 + t125 * t195 * t203 * t205 * #2 + - (t193 * t195 * t204 * t206 * #2) in
  let t633 := - (t127 * t130 * t202 * #2) + (t77 + t85) * t203 * t206 + - (t130 * t192 * t203 * t205 * #2) + - (t127 * t194 * t203 * t205 * #2) + - (t192 * t194 * t204 * t206 * #2) in
  let t634 := - (t126 * t129 * t202 * #2) + (t71 + t85) * t203 * t206 + - (t129 * t198 * t203 * t205 * #2) + - (t126 * t199 * t203 * t205 * #2) + - (t198 * t199 * t204 * t206 * #2) in
  let t635 := t127 * t191 * t202 * #2 + - ((t90 + t94) * t203 * t206) + t127 * t196 * t203 * t205 * #2 + t191 * t192 * t203 * t205 * #2 + t192 * t196 * t204 * t206 * #2 in
  let t636 := - (t128 * t189 * t202 * #2) + (t95 + t99) * t203 * t206 + t128 * t197 * t203 * t205 * #2 + t189 * t195 * t203 * t205 * #2 + - (t195 * t197 * t204 * t206 * #2) in
  let t637 := t125 * t189 * t202 * #2 + - ((t86 + t90) * t203 * t206) + - (t125 * t197 * t203 * t205 * #2) + - (t189 * t193 * t203 * t205 * #2) + t193 * t197 * t204 * t206 * #2 in
  let t638 := - (t130 * t191 * t202 * #2) + (t99 + t103) * t203 * t206 + - (t130 * t196 * t203 * t205 * #2) + - (t191 * t194 * t203 * t205 * #2) + - (t194 * t196 * t204 * t206 * #2) in
  let t86 := t126 * t190 * t202 * #2 + - ((t86 + t94) * t203 * t206) + t126 * t200 * t203 * t205 * #2 + t190 * t198 * t203 * t205 * #2 + t198 * t200 * t204 * t206 * #2 in
  let t71 := - (t129 * t190 * t202 * #2) + (t95 + t103) * t203 * t206 + - (t129 * t200 * t203 * t205 * #2) + - (t190 * t199 * t203 * t205 * #2) + - (t199 * t200 * t204 * t206 * #2) in
  let t85 := t189 * t191 * t202 * #2 + t26 * t28 * t203 * t206 * #2 + t189 * t196 * t203 * t205 * #2 + - (t191 * t197 * t203 * t205 * #2) + - (t196 * t197 * t204 * t206 * #2) in
  let t90 := - (t189 * t190 * t202 * #2) + t27 * t28 * t203 * t206 * #2 + t190 * t197 * t203 * t205 * #2 + - (t189 * t200 * t203 * t205 * #2) + t197 * t200 * t204 * t206 * #2 in
  let t99 := - (t190 * t191 * t202 * #2) + t26 * t27 * t203 * t206 * #2 + - (t190 * t196 * t203 * t205 * #2) + - (t191 * t200 * t203 * t205 * #2) + - (t196 * t200 * t204 * t206 * #2) in
  let t77 := - (t127 * t128 * t202 * #2) + t310 + (t75 + - (t68 * #4)) * t203 * t206 + t127 * t195 * t203 * t205 * #2 + - (t128 * t192 * t203 * t205 * #2) + t192 * t195 * t204 * t206 * #2 in
  let t131 := t126 * t128 * t202 * #2 + - t309 + (t80 + - (t70 * #4)) * t203 * t206 + t128 * t198 * t203 * t205 * #2 + - (t126 * t195 * t203 * t205 * #2) + - (t195 * t198 * t204 * t206 * #2) in
  let t133 := - (t125 * t130 * t202 * #2) + - t310 + t646_tmp * (t78 - t67 * #4) + t130 * t193 * t203 * t205 * #2 + - (t125 * t194 * t203 * t205 * #2) + t193 * t194 * t204 * t206 * #2 in
  let t325 := t125 * t129 * t202 * #2 + t309 + t646_tmp * (t82 - t69 * #4) + t125 * t199 * t203 * t205 * #2 + - (t129 * t193 * t203 * t205 * #2) + - (t193 * t199 * t204 * t206 * #2) in
  let t135 := t125 * t191 * t202 * #2 + t313 + (t75 + t18 * t28 * #2 + - t78) * t203 * t206 + t125 * t196 * t203 * t205 * #2 + - (t191 * t193 * t203 * t205 * #2) + - (t193 * t196 * t204 * t206 * #2) in
  let t324 := t127 * t189 * t202 * #2 + - t313 + (t78 + t22 * t26 * #2 + - t75) * t203 * t206 + - (t127 * t197 * t203 * t205 * #2) + t189 * t192 * t203 * t205 * #2 + - (t192 * t197 * t204 * t206 * #2) in
  let t318 := - (t126 * t189 * t202 * #2) + t312 + (t82 + t22 * t27 * #2 + - t80) * t203 * t206 + t126 * t197 * t203 * t205 * #2 + - (t189 * t198 * t203 * t205 * #2) + t197 * t198 * t204 * t206 * #2 in
  let t321 := - (t130 * t189 * t202 * #2) + t317 + - ((t78 + t25 * t26 * #2 + - t75) * t203 * t206) + t130 * t197 * t203 * t205 * #2 + - (t189 * t194 * t203 * t205 * #2) + t194 * t197 * t204 * t206 * #2 in
  let t323 := t129 * t191 * t202 * #2 + t319 + - ((t72 + t23 * t27 * #2 + - t73) * t203 * t206) + t129 * t196 * t203 * t205 * #2 + t191 * t199 * t203 * t205 * #2 + t196 * t199 * t204 * t206 * #2 in
  let t322 := - (t125 * t190 * t202 * #2) + - t312 + (t80 + t20 * t28 * #2 + - t82) * t203 * t206 + - (t125 * t200 * t203 * t205 * #2) + t190 * t193 * t203 * t205 * #2 + t193 * t200 * t204 * t206 * #2 in
  let t316 := t130 * t190 * t202 * #2 + - t319 + - ((t73 + t24 * t26 * #2 + - t72) * t203 * t206) + t130 * t200 * t203 * t205 * #2 + t190 * t194 * t203 * t205 * #2 + t194 * t200 * t204 * t206 * #2 in
  let t65 := - (t128 * t191 * t202 * #2) + - t317 + - ((t75 + t23 * t28 * #2 + - t78) * t203 * t206) + - (t128 * t196 * t203 * t205 * #2) + t191 * t195 * t203 * t205 * #2 + t195 * t196 * t204 * t206 * #2 in
  let t66 := - (t127 * t190 * t202 * #2) + t314 + (t73 + t20 * t26 * #2 + - t72) * t203 * t206 + - (t127 * t200 * t203 * t205 * #2) + - (t190 * t192 * t203 * t205 * #2) + - (t192 * t200 * t204 * t206 * #2) in
  let t13 := t128 * t190 * t202 * #2 + t315 + - ((t80 + t24 * t28 * #2 + - t82) * t203 * t206) + t128 * t200 * t203 * t205 * #2 + - (t190 * t195 * t203 * t205 * #2) + - (t195 * t200 * t204 * t206 * #2) in
  let t12 := - (t126 * t191 * t202 * #2) + - t314 + (t72 + t18 * t27 * #2 + - t73) * t203 * t206 + - (t126 * t196 * t203 * t205 * #2) + - (t191 * t198 * t203 * t205 * #2) + - (t196 * t198 * t204 * t206 * #2) in
  let t11 := t129 * t189 * t202 * #2 + - t315 + - ((t82 + t25 * t27 * #2 + - t80) * t203 * t206) + - (t129 * t197 * t203 * t205 * #2) + t189 * t199 * t203 * t205 * #2 + - (t197 * t199 * t204 * t206 * #2) in
  let H0 := t151 * t202 * #2 in
  let H1 := t262 in
  let H2 := t241 in
  let H3 := t606 in
  let H4 := t622 in
  let H5 := t625 in
  let H6 := t599 in
  let H7 := t619 in
  let H8 := t612 in
  let H9 := t603 in
  let H10 := t610 in
  let H11 := t615 in
  let H12 := t262 in
  let H13 := t150 * t202 * #2 in
  let H14 := t261 in
  let H15 := t621 in
  let H16 := t607 in
  let H17 := t620 in
  let H18 := t617 in
  let H19 := t602 in
  let H20 := t616 in
  let H21 := t609 in
  let H22 := t604 in
  let H23 := t608 in
  let H24 := t241 in
  let H25 := t261 in
  let H26 := t149 * t202 * #2 in
  let H27 := t624 in
  let H28 := t623 in
  let H29 := t605 in
  let H30 := t611 in
  let H31 := t618 in
  let H32 := t601 in
  let H33 := t614 in
  let H34 := t613 in
  let H35 := t600 in
  let H36 := t606 in
  let H37 := t621 in
  let H38 := t624 in
  let H39 := t191 * t191 * t202 * #2 + t196 * t196 * t204 * t206 * #2 - t646_tmp * (t45 + t46) + t191 * t196 * t203 * t205 * #4 in
  let H40 := t99 in
  let H41 := t85 in
  let H42 := t638 in
  let H43 := t323 in
  let H44 := t65 in
  let H45 := t635 in
  let H46 := t12 in
  let H47 := t135 in
  let H48 := t622 in
  let H49 := t607 in
  let H50 := t623 in
  let H51 := t99 in
  let H52 := t190 * t190 * t202 * #2 + t200 * t200 * t204 * t206 * #2 - t646_tmp * (t44 + t46) + t190 * t200 * t203 * t205 * #4 in
  let H53 := t90 in
  let H54 := t316 in
  let H55 := t71 in
  let H56 := t13 in
  let H57 := t66 in
  let H58 := t86 in
  let H59 := t322 in
  let H60 := t625 in
  let H61 := t620 in
  let H62 := t605 in
  let H63 := t85 in
  let H64 := t90 in
  let H65 := t189 * t189 * t202 * #2 + t197 * t197 * t204 * t206 * #2 - t646_tmp * (t44 + t45) - t189 * t197 * t203 * t205 * #4 in
  let H66 := t321 in
  let H67 := t11 in
  let H68 := t636 in
  let H69 := t324 in
  let H70 := t318 in
  let H71 := t637 in
  let H72 := t599 in
  let H73 := t617 in
  let H74 := t611 in
  let H75 := t638 in
  let H76 := t316 in
  let H77 := t321 in
  let H78 := t130 * t130 * t202 * #2 + t194 * t194 * t204 * t206 * #2 - t646_tmp * (t42 + t43) + t130 * t194 * t203 * t205 * #4 in
  let H79 := t631 in
  let H80 := t627 in
  let H81 := t633 in
  let H82 := t646 in
  let H83 := t133 in
  let H84 := t619 in
  let H85 := t602 in
  let H86 := t618 in
  let H87 := t323 in
  let H88 := t71 in
  let H89 := t11 in
  let H90 := t631 in
  let H91 := t129 * t129 * t202 * #2 + t199 * t199 * t204 * t206 * #2 - t646_tmp * (t41 + t43) + t129 * t199 * t203 * t205 * #4 in
  let H92 := t629 in
  let H93 := t645 in
  let H94 := t634 in
  let H95 := t325 in
  let H96 := t612 in
  let H97 := t616 in
  let H98 := t601 in
  let H99 := t65 in
  let H100 := t13 in
  let H101 := t636 in
  let H102 := t627 in
  let H103 := t629 in
  let H104 := t128 * t128 * t202 * #2 + t195 * t195 * t204 * t206 * #2 - t646_tmp * (t41 + t42) - t128 * t195 * t203 * t205 * #4 in
  let H105 := t77 in
  let H106 := t131 in
  let H107 := t632 in
  let H108 := t603 in
  let H109 := t609 in
  let H110 := t614 in
  let H111 := t635 in
  let H112 := t66 in
  let H113 := t324 in
  let H114 := t633 in
  let H115 := t645 in
  let H116 := t77 in
  let H117 := t127 * t127 * t202 * #2 + t192 * t192 * t204 * t206 * #2 - t646_tmp * (t39 + t40) + t127 * t192 * t203 * t205 * #4 in
  let H118 := t630 in
  let H119 := t626 in
  let H120 := t610 in
  let H121 := t604 in
  let H122 := t613 in
  let H123 := t12 in
  let H124 := t86 in
  let H125 := t318 in
  let H126 := t646 in
  let H127 := t634 in
  let H128 := t131 in
  let H129 := t630 in
  let H130 := t126 * t126 * t202 * #2 + t198 * t198 * t204 * t206 * #2 - t646_tmp * (t38 + t40) + t126 * t198 * t203 * t205 * #4 in
  let H131 := t628 in
  let H132 := t615 in
  let H133 := t608 in
  let H134 := t600 in
  let H135 := t135 in
  let H136 := t322 in
  let H137 := t637 in
  let H138 := t133 in
  let H139 := t325 in
  let H140 := t632 in
  let H141 := t626 in
  let H142 := t628 in
  let H143 := t125 * t125 * t202 * #2 + t193 * t193 * t204 * t206 * #2 - t646_tmp * (t38 + t39) - t125 * t193 * t203 * t205 * #4 in
  [H0; H1; H2; H3; H4; H5; H6; H7; H8; H9; H10; H11;
   H12; H13; H14; H15; H16; H17; H18; H19; H20; H21; H22; H23;
   H24; H25; H26; H27; H28; H29; H30; H31; H32; H33; H34; H35;
   H36; H37; H38; H39; H40; H41; H42; H43; H44; H45; H46; H47;
   H48; H49; H50; H51; H52; H53; H54; H55; H56; H57; H58; H59;
   H60; H61; H62; H63; H64; H65; H66; H67; H68; H69; H70; H71;
   H72; H73; H74; H75; H76; H77; H78; H79; H80; H81; H82; H83;
   H84; H85; H86; H87; H88; H89; H90; H91; H92; H93; H94; H95;
   H96; H97; H98; H99; H100; H101; H102; H103; H104; H105; H106; H107;
   H108; H109; H110; H111; H112; H113; H114; H115; H116; H117; H118; H119;
   H120; H121; H122; H123; H124; H125; H126; H127; H128; H129; H130; H131;
   H132; H133; H134; H135; H136; H137; H138; H139; H140; H141; H142; H143].
End Template.

Local Open Scope R_scope.
(** the operations of the code (Distance.hpp 224-3591) on the real numbers *)
Definition real : ops R := Ops R IZR Rplus Rminus Rmult Ropp Rdiv.
(** a vec with two entries (Distance.hpp 224-262) *)
Record v2 := V2 { ux : R; uy : R }.
(* 1130-1133: the planar case of dist2_pe *)
Definition dist2_pe2 (p e0 e1 : v2) : R :=
  let ex := ux e1 - ux e0 in let ey := uy e1 - uy e0 in
  let numerator := ey * ux p - ex * uy p + ux e1 * uy e0 - uy e1 * ux e0 in
  numerator * numerator / (ex * ex + ey * ey).
(* 1134-1135: the spatial case *)
Definition dist2_pe3 (p e0 e1 : v3) : R := norm_sqr (cross (vsub e0 p) (vsub e1 p)) / norm_sqr (vsub e1 e0).
(* 2386-2392 *)
Definition dist2_ee (ea0 ea1 eb0 eb1 : v3) : R :=
  let b := cross (vsub ea1 ea0) (vsub eb1 eb0) in
  let aTb := dot (vsub eb0 ea0) b in aTb * aTb / norm_sqr b.
(* 3942-3948 *)
Definition dist2_pt (p t0 t1 t2 : v3) : R :=
  let b := cross (vsub t1 t0) (vsub t2 t0) in
  let aTb := dot (vsub p t0) b in aTb * aTb / norm_sqr b.
(* 2836-2840 *)
Definition cn2_ee (ea0 ea1 eb0 eb1 : v3) : R := norm_sqr (cross (vsub ea1 ea0) (vsub eb1 eb0)).
(* 1182-1195, 1200-1213 *)
Definition dist_grad_pe2 (p e0 e1 : v2) : list R := g_PE2D real (ux p) (uy p) (ux e0) (uy e0) (ux e1) (uy e1).
Definition dist_hess_pe2 (p e0 e1 : v2) : list R := H_PE2D real (ux p) (uy p) (ux e0) (uy e0) (ux e1) (uy e1).
Definition on_3 {A} (f : R -> R -> R -> R -> R -> R -> R -> R -> R -> A) (a b c : v3) : A :=
  f (vx a) (vy a) (vz a) (vx b) (vy b) (vz b) (vx c) (vy c) (vz c).
Definition dist_grad_pe3 (p e0 e1 : v3) : list R := on_3 (g_PE3D real) p e0 e1.
Definition dist_hess_pe3 (p e0 e1 : v3) : list R := on_3 (H_PE3D real) p e0 e1.
Definition on_4 {A} (f : R -> R -> R -> R -> R -> R -> R -> R -> R -> R -> R -> R -> A) (a b c d : v3) : A :=
  f (vx a) (vy a) (vz a) (vx b) (vy b) (vz b) (vx c) (vy c) (vz c) (vx d) (vy d) (vz d).
(* 2450-2462, 2467-2479 *)
Definition dist_grad_ee (ea0 ea1 eb0 eb1 : v3) : list R := on_4 (g_EE real) ea0 ea1 eb0 eb1.
Definition dist_hess_ee (ea0 ea1 eb0 eb1 : v3) : list R := on_4 (H_EE real) ea0 ea1 eb0 eb1.
(* 2845-2857, 2862-2874 *)
Definition cn2_grad_ee (ea0 ea1 eb0 eb1 : v3) : list R := on_4 (g_EECN2 real) ea0 ea1 eb0 eb1.
Definition cn2_hess_ee (ea0 ea1 eb0 eb1 : v3) : list R := on_4 (H_EECN2 real) ea0 ea1 eb0 eb1.
(* 3998-4009, 4014-4025 *)
Definition dist_grad_pt (p t0 t1 t2 : v3) : list R := on_4 (g_PT real) p t0 t1 t2.
Definition dist_hess_pt (p t0 t1 t2 : v3) : list R := on_4 (H_PT real) p t0 t1 t2.
(* 2487-2499 *)
Definition EEM (input eps_x : R) : R := let input_div_eps_x := input / eps_x in (- input_div_eps_x + 2) * input_div_eps_x.
Definition g_EEM (input eps_x : R) : R := let one_div_eps_x := 1 / eps_x in 2 * one_div_eps_x * (- one_div_eps_x * input + 1).
Definition H_EEM (input eps_x : R) : R := -2 / (eps_x * eps_x).
(* 2879-2885 *)
Definition mollifier_threshold_ee (ea0 ea1 eb0 eb1 : v3) : R :=
  1 / 100 * norm_sqr (vsub ea0 ea1) * norm_sqr (vsub eb0 eb1).
(* 2890-2899 *)
Definition mollifier_ee (ea0 ea1 eb0 eb1 : v3) (eps : R) : R :=
  let c := cn2_ee ea0 ea1 eb0 eb1 in if Rlt_dec c eps then EEM c eps else 1.
(* 2904-2918 *)
Definition mollifier_grad_ee (ea0 ea1 eb0 eb1 : v3) (eps : R) : list R :=
  let c := cn2_ee ea0 ea1 eb0 eb1 in
  if Rlt_dec c eps then map (Rmult (g_EEM c eps)) (cn2_grad_ee ea0 ea1 eb0 eb1) else repeat 0 12.
(* 2923-2946: entry (i, j) of the matrix is at 12 i + j *)
Definition mollifier_hess_ee (ea0 ea1 eb0 eb1 : v3) (eps : R) : list R :=
  let c := cn2_ee ea0 ea1 eb0 eb1 in
  if Rlt_dec c eps then
    let g := cn2_grad_ee ea0 ea1 eb0 eb1 in
    let ggT := flat_map (fun gi => map (fun gj => gi * gj) g) g in
    map (fun hg => fst hg * g_EEM c eps + H_EEM c eps * snd hg) (combine (cn2_hess_ee ea0 ea1 eb0 eb1) ggT)
  else repeat 0 144.
