(** Values and derivatives of the basis functions of tetrahedra.  Generated from the files of /repo/src/dg/generated by a script, which keeps the expressions' structure; [x1], [x2], [x3] are xi_1 (xi), xi_2, xi_3;
    std::pow(a, n) is [a^n]; the literals 3.0L are written 3. *)
From Coq Require Import List ZArith.
From Verif Require Import BasisEx.
Import ListNotations.
Local Open Scope ex_scope.

(** src/dg/generated/basis_tet.inc:25-882 *)
Definition tet_val : list ex := [
  1;
  4*x3 - 1;
  3*x2 + x3 - 1;
  2*x1 + x2 + x3 - 1;
  15*x3^2 - 10*x3 + 1;
  (6*x3 - 1)*(3*x2 + x3 - 1);
  10*x2^2 + 8*x2*x3 - 8*x2 + x3^2 - 2*x3 + 1;
  (6*x3 - 1)*(2*x1 + x2 + x3 - 1);
  (5*x2 + x3 - 1)*(2*x1 + x2 + x3 - 1);
  (-1)/2*(x2 + x3 - 1)^2 + 3/2*(2*x1 + x2 + x3 - 1)^2;
  56*x3^3 - 63*x3^2 + 18*x3 - 1;
  (3*x2 + x3 - 1)*(14*x3 + 7*(2*x3 - 1)^2 - 6);
  (-(8*x3 - 1))*(4*x2*(x3 - 1)^2 + 3*(x3 - 1)^3 - 5*(x3 - 1)*(2*x2 + x3 - 1)^2)/(2*x3 - 2);
  35*x2^3 + 45*x2^2*x3 - 45*x2^2 + 15*x2*x3^2 - 30*x2*x3 + 15*x2 + x3^3 - 3*x3^2 + 3*x3 - 1;
  (14*x3 + 7*(2*x3 - 1)^2 - 6)*(2*x1 + x2 + x3 - 1);
  (8*x3 - 1)*(5*x2 + x3 - 1)*(2*x1 + x2 + x3 - 1);
  (-(36*x2*(x3 - 1)^2 + 17*(x3 - 1)^3 - 21*(x3 - 1)*(2*x2 + x3 - 1)^2))*(2*x1 + x2 + x3 - 1)/(4*x3 - 4);
  1/2*(8*x3 - 1)*(-(x2 + x3 - 1)^2 + 3*(2*x1 + x2 + x3 - 1)^2);
  1/2*(-(x2 + x3 - 1)^2 + 3*(2*x1 + x2 + x3 - 1)^2)*(7*x2 + x3 - 1);
  (-(6*x1*(x2 + x3 - 1)^3 + 3*(x2 + x3 - 1)^4 - 5*(x2 + x3 - 1)*(2*x1 + x2 + x3 - 1)^3))/(2*x2 + 2*x3 - 2);
  210*x3^4 - 336*x3^3 + 168*x3^2 - 28*x3 + 1;
  (3*x2 + x3 - 1)*(6*x3 + 15*(2*x3 - 1)^3 + 18*(2*x3 - 1)^2 - 4);
  (-(108*x3 + 45*(2*x3 - 1)^2 - 41))*(4*x2*(x3 - 1)^2 + 3*(x3 - 1)^3 - 5*(x3 - 1)*(2*x2 + x3 - 1)^2)/(8*x3 - 8);
  (-(10*x3 - 1))*(30*x2*(x3 - 1)^3 + 12*(x3 - 1)^4 + 15*(x3 - 1)^2*(2*x2 + x3 - 1)^2 - 35*(x3 - 1)*(2*x2 + x3 - 1)^3)/(8*x3 - 8);
  3*x2*(x3 - 1)^3 + 15/8*(x3 - 1)^4 - 21/4*(x3 - 1)^2*(2*x2 + x3 - 1)^2 - 7/2*(x3 - 1)*(2*x2 + x3 - 1)^3 + 63/8*(2*x2 + x3 - 1)^4;
  (2*x1 + x2 + x3 - 1)*(6*x3 + 15*(2*x3 - 1)^3 + 18*(2*x3 - 1)^2 - 4);
  1/4*(5*x2 + x3 - 1)*(108*x3 + 45*(2*x3 - 1)^2 - 41)*(2*x1 + x2 + x3 - 1);
  (-(10*x3 - 1))*(36*x2*(x3 - 1)^2 + 17*(x3 - 1)^3 - 21*(x3 - 1)*(2*x2 + x3 - 1)^2)*(2*x1 + x2 + x3 - 1)/(4*x3 - 4);
  1/2*(2*(x3 - 1)^3 - 21*(x3 - 1)*(2*x2 + x3 - 1)^2 + 21*(2*x2 + x3 - 1)^3)*(2*x1 + x2 + x3 - 1);
  1/8*(-(x2 + x3 - 1)^2 + 3*(2*x1 + x2 + x3 - 1)^2)*(108*x3 + 45*(2*x3 - 1)^2 - 41);
  1/2*(10*x3 - 1)*(-(x2 + x3 - 1)^2 + 3*(2*x1 + x2 + x3 - 1)^2)*(7*x2 + x3 - 1);
  ((x2 + x3 - 1)^2 - 3*(2*x1 + x2 + x3 - 1)^2)*(20*x2*(x3 - 1)^2 + 8*(x3 - 1)^3 - 9*(x3 - 1)*(2*x2 + x3 - 1)^2)/(2*x3 - 2);
  (-(10*x3 - 1))*(6*x1*(x2 + x3 - 1)^3 + 3*(x2 + x3 - 1)^4 - 5*(x2 + x3 - 1)*(2*x1 + x2 + x3 - 1)^3)/(2*x2 + 2*x3 - 2);
  1/2*(9*x2 + x3 - 1)*(6*x1*(x2 + x3 - 1)^3 + 5*(-x2 - x3 + 1)*(2*x1 + x2 + x3 - 1)^3 + 3*(x2 + x3 - 1)^4)/(-x2 - x3 + 1);
  3/8*(x2 + x3 - 1)^4 - 15/4*(x2 + x3 - 1)^2*(2*x1 + x2 + x3 - 1)^2 + 35/8*(2*x1 + x2 + x3 - 1)^4;
  792*x3^5 - 1650*x3^4 + 1200*x3^3 - 360*x3^2 + 40*x3 - 1;
  1/16*(3*x2 + x3 - 1)*((-216)*x3 + 495*(2*x3 - 1)^4 + 660*(2*x3 - 1)^3 + 90*(2*x3 - 1)^2 + 91);
  (-(4*x2*(x3 - 1)^2 + 3*(x3 - 1)^3 - 5*(x3 - 1)*(2*x2 + x3 - 1)^2))*(120*x3 + 110*(2*x3 - 1)^3 + 165*(2*x3 - 1)^2 - 59)/(8*x3 - 8);
  (-(88*x3 + 33*(2*x3 - 1)^2 - 31))*(30*x2*(x3 - 1)^3 + 12*(x3 - 1)^4 + 15*(x3 - 1)^2*(2*x2 + x3 - 1)^2 - 35*(x3 - 1)*(2*x2 + x3 - 1)^3)/(16*x3 - 16);
  1/8*(12*x3 - 1)*(24*x2*(x3 - 1)^3 + 15*(x3 - 1)^4 - 42*(x3 - 1)^2*(2*x2 + x3 - 1)^2 - 28*(x3 - 1)*(2*x2 + x3 - 1)^3 + 63*(2*x2 + x3 - 1)^4);
  1/16*(70*x2*(x3 - 1)^5 - 105*(-x3 + 1)^2*((-2)*x2 - x3 + 1)^4 + 231*(-x3 + 1)*((-2)*x2 - x3 + 1)^5 + 30*(x3 - 1)^6 + 70*(x3 - 1)^4*((-2)*x2 - x3 + 1)^2 + 210*(x3 - 1)^3*((-2)*x2 - x3 + 1)^3)/(x3 - 1);
  1/16*(2*x1 + x2 + x3 - 1)*((-216)*x3 + 495*(2*x3 - 1)^4 + 660*(2*x3 - 1)^3 + 90*(2*x3 - 1)^2 + 91);
  1/4*(5*x2 + x3 - 1)*(2*x1 + x2 + x3 - 1)*(120*x3 + 110*(2*x3 - 1)^3 + 165*(2*x3 - 1)^2 - 59);
  (-(88*x3 + 33*(2*x3 - 1)^2 - 31))*(36*x2*(x3 - 1)^2 + 17*(x3 - 1)^3 - 21*(x3 - 1)*(2*x2 + x3 - 1)^2)*(2*x1 + x2 + x3 - 1)/(8*x3 - 8);
  1/2*(12*x3 - 1)*(2*(x3 - 1)^3 - 21*(x3 - 1)*(2*x2 + x3 - 1)^2 + 21*(2*x2 + x3 - 1)^3)*(2*x1 + x2 + x3 - 1);
  1/8*(2*x1 + x2 + x3 - 1)*(88*x2*(x3 - 1)^3 + 41*(x3 - 1)^4 - 18*(x3 - 1)^2*(2*x2 + x3 - 1)^2 - 180*(x3 - 1)*(2*x2 + x3 - 1)^3 + 165*(2*x2 + x3 - 1)^4);
  1/8*(-(x2 + x3 - 1)^2 + 3*(2*x1 + x2 + x3 - 1)^2)*(120*x3 + 110*(2*x3 - 1)^3 + 165*(2*x3 - 1)^2 - 59);
  1/4*(-(x2 + x3 - 1)^2 + 3*(2*x1 + x2 + x3 - 1)^2)*(7*x2 + x3 - 1)*(88*x3 + 33*(2*x3 - 1)^2 - 31);
  (12*x3 - 1)*((x2 + x3 - 1)^2 - 3*(2*x1 + x2 + x3 - 1)^2)*(20*x2*(x3 - 1)^2 + 8*(x3 - 1)^3 - 9*(x3 - 1)*(2*x2 + x3 - 1)^2)/(2*x3 - 2);
  1/16*(-(x2 + x3 - 1)^2 + 3*(2*x1 + x2 + x3 - 1)^2)*(126*x2*(x3 - 1)^3 - 225*(-x3 + 1)^2*((-2)*x2 - x3 + 1)^2 + 165*(-x3 + 1)*((-2)*x2 - x3 + 1)^3 + 68*(x3 - 1)^4)/(x3 - 1);
  (-(88*x3 + 33*(2*x3 - 1)^2 - 31))*(6*x1*(x2 + x3 - 1)^3 + 3*(x2 + x3 - 1)^4 - 5*(x2 + x3 - 1)*(2*x1 + x2 + x3 - 1)^3)/(4*x2 + 4*x3 - 4);
  1/2*(12*x3 - 1)*(9*x2 + x3 - 1)*(6*x1*(x2 + x3 - 1)^3 + 5*(-x2 - x3 + 1)*(2*x1 + x2 + x3 - 1)^3 + 3*(x2 + x3 - 1)^4)/(-x2 - x3 + 1);
  1/8*(6*x1*(x2 + x3 - 1)^3 + 5*(-x2 - x3 + 1)*(2*x1 + x2 + x3 - 1)^3 + 3*(x2 + x3 - 1)^4)*(140*x2*(x3 - 1)^2 + 55*(-x3 + 1)*((-2)*x2 - x3 + 1)^2 + 51*(x3 - 1)^3)/((x3 - 1)*(x2 + x3 - 1));
  1/8*(12*x3 - 1)*(3*(x2 + x3 - 1)^4 - 30*(x2 + x3 - 1)^2*(2*x1 + x2 + x3 - 1)^2 + 35*(2*x1 + x2 + x3 - 1)^4);
  1/8*(11*x2 + x3 - 1)*(3*(x2 + x3 - 1)^4 - 30*(x2 + x3 - 1)^2*(2*x1 + x2 + x3 - 1)^2 + 35*(2*x1 + x2 + x3 - 1)^4);
  1/8*(30*x1*(x2 + x3 - 1)^5 + 63*(-x2 - x3 + 1)*((-2)*x1 - x2 - x3 + 1)^5 + 15*(x2 + x3 - 1)^6 + 70*(x2 + x3 - 1)^3*((-2)*x1 - x2 - x3 + 1)^3)/(x2 + x3 - 1);
  3003*x3^6 - 7722*x3^5 + 7425*x3^4 - 3300*x3^3 + 675*x3^2 - 54*x3 + 1;
  1/16*(3*x2 + x3 - 1)*((-190)*x3 + 1001*(2*x3 - 1)^5 + 1430*(2*x3 - 1)^4 + 110*(2*x3 - 1)^3 - 440*(2*x3 - 1)^2 + 105);
  (-(4*x2*(x3 - 1)^2 + 3*(x3 - 1)^3 - 5*(x3 - 1)*(2*x2 + x3 - 1)^2))*((-88)*x3 + 1001*(2*x3 - 1)^4 + 1716*(2*x3 - 1)^3 + 726*(2*x3 - 1)^2 + 5)/(32*x3 - 32);
  (-(150*x3 + 91*(2*x3 - 1)^3 + 156*(2*x3 - 1)^2 - 67))*(30*x2*(x3 - 1)^3 + 12*(x3 - 1)^4 + 15*(x3 - 1)^2*(2*x2 + x3 - 1)^2 - 35*(x3 - 1)*(2*x2 + x3 - 1)^3)/(16*x3 - 16);
  1/32*(260*x3 + 91*(2*x3 - 1)^2 - 87)*(24*x2*(x3 - 1)^3 + 15*(x3 - 1)^4 - 42*(x3 - 1)^2*(2*x2 + x3 - 1)^2 - 28*(x3 - 1)*(2*x2 + x3 - 1)^3 + 63*(2*x2 + x3 - 1)^4);
  1/16*(14*x3 - 1)*(70*x2*(x3 - 1)^5 - 105*(-x3 + 1)^2*((-2)*x2 - x3 + 1)^4 + 231*(-x3 + 1)*((-2)*x2 - x3 + 1)^5 + 30*(x3 - 1)^6 + 70*(x3 - 1)^4*((-2)*x2 - x3 + 1)^2 + 210*(x3 - 1)^3*((-2)*x2 - x3 + 1)^3)/(x3 - 1);
  1/16*((-60)*x2*(x3 - 1)^6 - 135*(-x3 + 1)^5*((-2)*x2 - x3 + 1)^2 + 198*(-x3 + 1)^2*((-2)*x2 - x3 + 1)^5 - 429*(-x3 + 1)*((-2)*x2 - x3 + 1)^6 - 35*(x3 - 1)^7 - 180*(x3 - 1)^4*((-2)*x2 - x3 + 1)^3 - 495*(x3 - 1)^3*((-2)*x2 - x3 + 1)^4)/(x3 - 1);
  1/16*(2*x1 + x2 + x3 - 1)*((-190)*x3 + 1001*(2*x3 - 1)^5 + 1430*(2*x3 - 1)^4 + 110*(2*x3 - 1)^3 - 440*(2*x3 - 1)^2 + 105);
  1/16*(5*x2 + x3 - 1)*(2*x1 + x2 + x3 - 1)*((-88)*x3 + 1001*(2*x3 - 1)^4 + 1716*(2*x3 - 1)^3 + 726*(2*x3 - 1)^2 + 5);
  (-(36*x2*(x3 - 1)^2 + 17*(x3 - 1)^3 - 21*(x3 - 1)*(2*x2 + x3 - 1)^2))*(2*x1 + x2 + x3 - 1)*(150*x3 + 91*(2*x3 - 1)^3 + 156*(2*x3 - 1)^2 - 67)/(8*x3 - 8);
  1/8*(260*x3 + 91*(2*x3 - 1)^2 - 87)*(2*(x3 - 1)^3 - 21*(x3 - 1)*(2*x2 + x3 - 1)^2 + 21*(2*x2 + x3 - 1)^3)*(2*x1 + x2 + x3 - 1);
  1/8*(14*x3 - 1)*(2*x1 + x2 + x3 - 1)*(88*x2*(x3 - 1)^3 + 41*(x3 - 1)^4 - 18*(x3 - 1)^2*(2*x2 + x3 - 1)^2 - 180*(x3 - 1)*(2*x2 + x3 - 1)^3 + 165*(2*x2 + x3 - 1)^4);
  1/32*(2*x1 + x2 + x3 - 1)*((-90)*x2*(x3 - 1)^5 - 70*(-x3 + 1)^6 - 1485*(-x3 + 1)^2*((-2)*x2 - x3 + 1)^4 + 1287*(-x3 + 1)*((-2)*x2 - x3 + 1)^5 + 630*(x3 - 1)^4*((-2)*x2 - x3 + 1)^2 + 330*(x3 - 1)^3*((-2)*x2 - x3 + 1)^3)/(x3 - 1);
  1/32*(-(x2 + x3 - 1)^2 + 3*(2*x1 + x2 + x3 - 1)^2)*((-88)*x3 + 1001*(2*x3 - 1)^4 + 1716*(2*x3 - 1)^3 + 726*(2*x3 - 1)^2 + 5);
  1/4*(-(x2 + x3 - 1)^2 + 3*(2*x1 + x2 + x3 - 1)^2)*(7*x2 + x3 - 1)*(150*x3 + 91*(2*x3 - 1)^3 + 156*(2*x3 - 1)^2 - 67);
  ((x2 + x3 - 1)^2 - 3*(2*x1 + x2 + x3 - 1)^2)*(260*x3 + 91*(2*x3 - 1)^2 - 87)*(20*x2*(x3 - 1)^2 + 8*(x3 - 1)^3 - 9*(x3 - 1)*(2*x2 + x3 - 1)^2)/(8*x3 - 8);
  1/16*(14*x3 - 1)*(-(x2 + x3 - 1)^2 + 3*(2*x1 + x2 + x3 - 1)^2)*(126*x2*(x3 - 1)^3 - 225*(-x3 + 1)^2*((-2)*x2 - x3 + 1)^2 + 165*(-x3 + 1)*((-2)*x2 - x3 + 1)^3 + 68*(x3 - 1)^4)/(x3 - 1);
  1/32*(-(x2 + x3 - 1)^2 + 3*(2*x1 + x2 + x3 - 1)^2)*(200*x2*(x3 - 1)^3 + 71*(x3 - 1)^4 + 330*(x3 - 1)^2*(2*x2 + x3 - 1)^2 - 1100*(x3 - 1)*(2*x2 + x3 - 1)^3 + 715*(2*x2 + x3 - 1)^4);
  (-(6*x1*(x2 + x3 - 1)^3 + 3*(x2 + x3 - 1)^4 - 5*(x2 + x3 - 1)*(2*x1 + x2 + x3 - 1)^3))*(150*x3 + 91*(2*x3 - 1)^3 + 156*(2*x3 - 1)^2 - 67)/(4*x2 + 4*x3 - 4);
  1/8*(9*x2 + x3 - 1)*(260*x3 + 91*(2*x3 - 1)^2 - 87)*(6*x1*(x2 + x3 - 1)^3 + 5*(-x2 - x3 + 1)*(2*x1 + x2 + x3 - 1)^3 + 3*(x2 + x3 - 1)^4)/(-x2 - x3 + 1);
  1/8*(14*x3 - 1)*(6*x1*(x2 + x3 - 1)^3 + 5*(-x2 - x3 + 1)*(2*x1 + x2 + x3 - 1)^3 + 3*(x2 + x3 - 1)^4)*(140*x2*(x3 - 1)^2 + 55*(-x3 + 1)*((-2)*x2 - x3 + 1)^2 + 51*(x3 - 1)^3)/((x3 - 1)*(x2 + x3 - 1));
  (-(6*x1*(x2 + x3 - 1)^3 + 3*(x2 + x3 - 1)^4 - 5*(x2 + x3 - 1)*(2*x1 + x2 + x3 - 1)^3))*(198*x2*(x3 - 1)^2 + 92*(x3 - 1)^3 - 231*(x3 - 1)*(2*x2 + x3 - 1)^2 + 143*(2*x2 + x3 - 1)^3)/(8*x2 + 8*x3 - 8);
  1/32*(260*x3 + 91*(2*x3 - 1)^2 - 87)*(3*(x2 + x3 - 1)^4 - 30*(x2 + x3 - 1)^2*(2*x1 + x2 + x3 - 1)^2 + 35*(2*x1 + x2 + x3 - 1)^4);
  1/8*(14*x3 - 1)*(11*x2 + x3 - 1)*(3*(x2 + x3 - 1)^4 - 30*(x2 + x3 - 1)^2*(2*x1 + x2 + x3 - 1)^2 + 35*(2*x1 + x2 + x3 - 1)^4);
  (-(108*x2*(x3 - 1)^2 + 37*(x3 - 1)^3 - 39*(x3 - 1)*(2*x2 + x3 - 1)^2))*(3*(x2 + x3 - 1)^4 - 30*(x2 + x3 - 1)^2*(2*x1 + x2 + x3 - 1)^2 + 35*(2*x1 + x2 + x3 - 1)^4)/(16*x3 - 16);
  1/8*(14*x3 - 1)*(30*x1*(x2 + x3 - 1)^5 + 63*(-x2 - x3 + 1)*((-2)*x1 - x2 - x3 + 1)^5 + 15*(x2 + x3 - 1)^6 + 70*(x2 + x3 - 1)^3*((-2)*x1 - x2 - x3 + 1)^3)/(x2 + x3 - 1);
  1/8*(13*x2 + x3 - 1)*(30*x1*(x2 + x3 - 1)^5 + 63*(-x2 - x3 + 1)*((-2)*x1 - x2 - x3 + 1)^5 + 15*(x2 + x3 - 1)^6 + 70*(x2 + x3 - 1)^3*((-2)*x1 - x2 - x3 + 1)^3)/(x2 + x3 - 1);
  (-5)/16*(x2 + x3 - 1)^6 + 105/16*(x2 + x3 - 1)^4*(2*x1 + x2 + x3 - 1)^2 - 315/16*(x2 + x3 - 1)^2*(2*x1 + x2 + x3 - 1)^4 + 231/16*(2*x1 + x2 + x3 - 1)^6;
  11440*x3^7 - 35035*x3^6 + 42042*x3^5 - 25025*x3^4 + 7700*x3^3 - 1155*x3^2 + 70*x3 - 1;
  1/16*(3*x2 + x3 - 1)*(198*x3 + 2002*(2*x3 - 1)^6 + 3003*(2*x3 - 1)^5 - 1430*(2*x3 - 1)^3 - 330*(2*x3 - 1)^2 - 83);
  (-(4*x2*(x3 - 1)^2 + 3*(x3 - 1)^3 - 5*(x3 - 1)*(2*x2 + x3 - 1)^2))*((-600)*x3 + 2184*(2*x3 - 1)^5 + 4095*(2*x3 - 1)^4 + 1820*(2*x3 - 1)^3 - 390*(2*x3 - 1)^2 + 283)/(32*x3 - 32);
  (-(30*x2*(x3 - 1)^3 + 12*(x3 - 1)^4 + 15*(x3 - 1)^2*(2*x2 + x3 - 1)^2 - 35*(x3 - 1)*(2*x2 + x3 - 1)^3))*(156*x3 + 455*(2*x3 - 1)^4 + 910*(2*x3 - 1)^3 + 546*(2*x3 - 1)^2 - 87)/(32*x3 - 32);
  1/32*(588*x3 + 280*(2*x3 - 1)^3 + 525*(2*x3 - 1)^2 - 249)*(24*x2*(x3 - 1)^3 + 15*(x3 - 1)^4 - 42*(x3 - 1)^2*(2*x2 + x3 - 1)^2 - 28*(x3 - 1)*(2*x2 + x3 - 1)^3 + 63*(2*x2 + x3 - 1)^4);
  1/16*(90*x3 + 30*(2*x3 - 1)^2 - 29)*(70*x2*(x3 - 1)^5 - 105*(-x3 + 1)^2*((-2)*x2 - x3 + 1)^4 + 231*(-x3 + 1)*((-2)*x2 - x3 + 1)^5 + 30*(x3 - 1)^6 + 70*(x3 - 1)^4*((-2)*x2 - x3 + 1)^2 + 210*(x3 - 1)^3*((-2)*x2 - x3 + 1)^3)/(x3 - 1);
  (-(16*x3 - 1))*(60*x2*(x3 - 1)^6 + 35*(x3 - 1)^7 - 135*(x3 - 1)^5*(2*x2 + x3 - 1)^2 - 180*(x3 - 1)^4*(2*x2 + x3 - 1)^3 + 495*(x3 - 1)^3*(2*x2 + x3 - 1)^4 + 198*(x3 - 1)^2*(2*x2 + x3 - 1)^5 - 429*(x3 - 1)*(2*x2 + x3 - 1)^6)/(16*x3 - 16);
  1/128*((-630)*x2*(x3 - 1)^7 - 3465*(-x3 + 1)^5*(2*x2 + x3 - 1)^3 + 3465*(-x3 + 1)^4*(2*x2 + x3 - 1)^4 - 6435*(-x3 + 1)*(2*x2 + x3 - 1)^7 - 280*(x3 - 1)^8 - 945*(x3 - 1)^6*(2*x2 + x3 - 1)^2 - 9009*(x3 - 1)^3*(2*x2 + x3 - 1)^5 - 3003*(x3 - 1)^2*(2*x2 + x3 - 1)^6)/(x3 - 1);
  1/16*(2*x1 + x2 + x3 - 1)*(198*x3 + 2002*(2*x3 - 1)^6 + 3003*(2*x3 - 1)^5 - 1430*(2*x3 - 1)^3 - 330*(2*x3 - 1)^2 - 83);
  1/16*(5*x2 + x3 - 1)*(2*x1 + x2 + x3 - 1)*((-600)*x3 + 2184*(2*x3 - 1)^5 + 4095*(2*x3 - 1)^4 + 1820*(2*x3 - 1)^3 - 390*(2*x3 - 1)^2 + 283);
  (-(36*x2*(x3 - 1)^2 + 17*(x3 - 1)^3 - 21*(x3 - 1)*(2*x2 + x3 - 1)^2))*(2*x1 + x2 + x3 - 1)*(156*x3 + 455*(2*x3 - 1)^4 + 910*(2*x3 - 1)^3 + 546*(2*x3 - 1)^2 - 87)/(16*x3 - 16);
  1/8*(2*(x3 - 1)^3 - 21*(x3 - 1)*(2*x2 + x3 - 1)^2 + 21*(2*x2 + x3 - 1)^3)*(2*x1 + x2 + x3 - 1)*(588*x3 + 280*(2*x3 - 1)^3 + 525*(2*x3 - 1)^2 - 249);
  1/8*(90*x3 + 30*(2*x3 - 1)^2 - 29)*(2*x1 + x2 + x3 - 1)*(88*x2*(x3 - 1)^3 + 41*(x3 - 1)^4 - 18*(x3 - 1)^2*(2*x2 + x3 - 1)^2 - 180*(x3 - 1)*(2*x2 + x3 - 1)^3 + 165*(2*x2 + x3 - 1)^4);
  1/32*(16*x3 - 1)*(2*x1 + x2 + x3 - 1)*((-90)*x2*(x3 - 1)^5 - 70*(-x3 + 1)^6 - 1485*(-x3 + 1)^2*((-2)*x2 - x3 + 1)^4 + 1287*(-x3 + 1)*((-2)*x2 - x3 + 1)^5 + 630*(x3 - 1)^4*((-2)*x2 - x3 + 1)^2 + 330*(x3 - 1)^3*((-2)*x2 - x3 + 1)^3)/(x3 - 1);
  (-(2*x1 + x2 + x3 - 1))*(780*x2*(x3 - 1)^6 + 365*(x3 - 1)^7 + 165*(x3 - 1)^5*(2*x2 + x3 - 1)^2 - 3740*(x3 - 1)^4*(2*x2 + x3 - 1)^3 + 2145*(x3 - 1)^3*(2*x2 + x3 - 1)^4 + 6006*(x3 - 1)^2*(2*x2 + x3 - 1)^5 - 5005*(x3 - 1)*(2*x2 + x3 - 1)^6)/(64*x3 - 64);
  1/32*(-(x2 + x3 - 1)^2 + 3*(2*x1 + x2 + x3 - 1)^2)*((-600)*x3 + 2184*(2*x3 - 1)^5 + 4095*(2*x3 - 1)^4 + 1820*(2*x3 - 1)^3 - 390*(2*x3 - 1)^2 + 283);
  1/8*(-(x2 + x3 - 1)^2 + 3*(2*x1 + x2 + x3 - 1)^2)*(7*x2 + x3 - 1)*(156*x3 + 455*(2*x3 - 1)^4 + 910*(2*x3 - 1)^3 + 546*(2*x3 - 1)^2 - 87);
  ((x2 + x3 - 1)^2 - 3*(2*x1 + x2 + x3 - 1)^2)*(20*x2*(x3 - 1)^2 + 8*(x3 - 1)^3 - 9*(x3 - 1)*(2*x2 + x3 - 1)^2)*(588*x3 + 280*(2*x3 - 1)^3 + 525*(2*x3 - 1)^2 - 249)/(8*x3 - 8);
  1/16*(-(x2 + x3 - 1)^2 + 3*(2*x1 + x2 + x3 - 1)^2)*(90*x3 + 30*(2*x3 - 1)^2 - 29)*(126*x2*(x3 - 1)^3 - 225*(-x3 + 1)^2*((-2)*x2 - x3 + 1)^2 + 165*(-x3 + 1)*((-2)*x2 - x3 + 1)^3 + 68*(x3 - 1)^4)/(x3 - 1);
  1/32*(16*x3 - 1)*(-(x2 + x3 - 1)^2 + 3*(2*x1 + x2 + x3 - 1)^2)*(200*x2*(x3 - 1)^3 + 71*(x3 - 1)^4 + 330*(x3 - 1)^2*(2*x2 + x3 - 1)^2 - 1100*(x3 - 1)*(2*x2 + x3 - 1)^3 + 715*(2*x2 + x3 - 1)^4);
  ((x2 + x3 - 1)^2 - 3*(2*x1 + x2 + x3 - 1)^2)*(770*x2*(x3 - 1)^5 + 386*(x3 - 1)^6 - 990*(x3 - 1)^4*(2*x2 + x3 - 1)^2 - 1430*(x3 - 1)^3*(2*x2 + x3 - 1)^3 + 5005*(x3 - 1)^2*(2*x2 + x3 - 1)^4 - 3003*(x3 - 1)*(2*x2 + x3 - 1)^5)/(64*x3 - 64);
  (-(6*x1*(x2 + x3 - 1)^3 + 3*(x2 + x3 - 1)^4 - 5*(x2 + x3 - 1)*(2*x1 + x2 + x3 - 1)^3))*(156*x3 + 455*(2*x3 - 1)^4 + 910*(2*x3 - 1)^3 + 546*(2*x3 - 1)^2 - 87)/(8*x2 + 8*x3 - 8);
  1/8*(9*x2 + x3 - 1)*(6*x1*(x2 + x3 - 1)^3 + 5*(-x2 - x3 + 1)*(2*x1 + x2 + x3 - 1)^3 + 3*(x2 + x3 - 1)^4)*(588*x3 + 280*(2*x3 - 1)^3 + 525*(2*x3 - 1)^2 - 249)/(-x2 - x3 + 1);
  1/8*(90*x3 + 30*(2*x3 - 1)^2 - 29)*(6*x1*(x2 + x3 - 1)^3 + 5*(-x2 - x3 + 1)*(2*x1 + x2 + x3 - 1)^3 + 3*(x2 + x3 - 1)^4)*(140*x2*(x3 - 1)^2 + 55*(-x3 + 1)*((-2)*x2 - x3 + 1)^2 + 51*(x3 - 1)^3)/((x3 - 1)*(x2 + x3 - 1));
  (-(16*x3 - 1))*(6*x1*(x2 + x3 - 1)^3 + 3*(x2 + x3 - 1)^4 - 5*(x2 + x3 - 1)*(2*x1 + x2 + x3 - 1)^3)*(198*x2*(x3 - 1)^2 + 92*(x3 - 1)^3 - 231*(x3 - 1)*(2*x2 + x3 - 1)^2 + 143*(2*x2 + x3 - 1)^3)/(8*x2 + 8*x3 - 8);
  (6*x1*(x2 + x3 - 1)^3 + 3*(x2 + x3 - 1)^4 - 5*(x2 + x3 - 1)*(2*x1 + x2 + x3 - 1)^3)*(168*x2*(x3 - 1)^3 + 127*(x3 - 1)^4 - 1326*(x3 - 1)^2*(2*x2 + x3 - 1)^2 + 2548*(x3 - 1)*(2*x2 + x3 - 1)^3 - 1365*(2*x2 + x3 - 1)^4)/(32*x2 + 32*x3 - 32);
  1/32*(3*(x2 + x3 - 1)^4 - 30*(x2 + x3 - 1)^2*(2*x1 + x2 + x3 - 1)^2 + 35*(2*x1 + x2 + x3 - 1)^4)*(588*x3 + 280*(2*x3 - 1)^3 + 525*(2*x3 - 1)^2 - 249);
  1/8*(11*x2 + x3 - 1)*(90*x3 + 30*(2*x3 - 1)^2 - 29)*(3*(x2 + x3 - 1)^4 - 30*(x2 + x3 - 1)^2*(2*x1 + x2 + x3 - 1)^2 + 35*(2*x1 + x2 + x3 - 1)^4);
  (-(16*x3 - 1))*(108*x2*(x3 - 1)^2 + 37*(x3 - 1)^3 - 39*(x3 - 1)*(2*x2 + x3 - 1)^2)*(3*(x2 + x3 - 1)^4 - 30*(x2 + x3 - 1)^2*(2*x1 + x2 + x3 - 1)^2 + 35*(2*x1 + x2 + x3 - 1)^4)/(16*x3 - 16);
  1/64*(3*(x2 + x3 - 1)^4 - 30*(x2 + x3 - 1)^2*(2*x1 + x2 + x3 - 1)^2 + 35*(2*x1 + x2 + x3 - 1)^4)*(858*x2*(x3 - 1)^3 - 819*(-x3 + 1)^2*((-2)*x2 - x3 + 1)^2 + 455*(-x3 + 1)*((-2)*x2 - x3 + 1)^3 + 372*(x3 - 1)^4)/(x3 - 1);
  1/8*(90*x3 + 30*(2*x3 - 1)^2 - 29)*(30*x1*(x2 + x3 - 1)^5 + 63*(-x2 - x3 + 1)*((-2)*x1 - x2 - x3 + 1)^5 + 15*(x2 + x3 - 1)^6 + 70*(x2 + x3 - 1)^3*((-2)*x1 - x2 - x3 + 1)^3)/(x2 + x3 - 1);
  1/8*(16*x3 - 1)*(13*x2 + x3 - 1)*(30*x1*(x2 + x3 - 1)^5 + 63*(-x2 - x3 + 1)*((-2)*x1 - x2 - x3 + 1)^5 + 15*(x2 + x3 - 1)^6 + 70*(x2 + x3 - 1)^3*((-2)*x1 - x2 - x3 + 1)^3)/(x2 + x3 - 1);
  (-1)/32*(308*x2*(x3 - 1)^2 + 101*(x3 - 1)^3 - 105*(x3 - 1)*(2*x2 + x3 - 1)^2)*(30*x1*(x2 + x3 - 1)^5 + 15*(x2 + x3 - 1)^6 - 70*(x2 + x3 - 1)^3*(2*x1 + x2 + x3 - 1)^3 + 63*(x2 + x3 - 1)*(2*x1 + x2 + x3 - 1)^5)/((x3 - 1)*(x2 + x3 - 1));
  1/16*(16*x3 - 1)*((-5)*(x2 + x3 - 1)^6 + 105*(x2 + x3 - 1)^4*(2*x1 + x2 + x3 - 1)^2 - 315*(x2 + x3 - 1)^2*(2*x1 + x2 + x3 - 1)^4 + 231*(2*x1 + x2 + x3 - 1)^6);
  1/16*(15*x2 + x3 - 1)*((-5)*(x2 + x3 - 1)^6 + 105*(x2 + x3 - 1)^4*(2*x1 + x2 + x3 - 1)^2 - 315*(x2 + x3 - 1)^2*(2*x1 + x2 + x3 - 1)^4 + 231*(2*x1 + x2 + x3 - 1)^6);
  (-(70*x1*(x2 + x3 - 1)^7 + 35*(x2 + x3 - 1)^8 - 315*(x2 + x3 - 1)^5*(2*x1 + x2 + x3 - 1)^3 + 693*(x2 + x3 - 1)^3*(2*x1 + x2 + x3 - 1)^5 - 429*(x2 + x3 - 1)*(2*x1 + x2 + x3 - 1)^7))/(16*x2 + 16*x3 - 16);
  43758*x3^8 - 155584*x3^7 + 224224*x3^6 - 168168*x3^5 + 70070*x3^4 - 16016*x3^3 + 1848*x3^2 - 88*x3 + 1;
  1/16*(3*x2 + x3 - 1)*(252*x3 + 3978*(2*x3 - 1)^7 + 6188*(2*x3 - 1)^6 - 546*(2*x3 - 1)^5 - 4095*(2*x3 - 1)^4 - 910*(2*x3 - 1)^3 + 546*(2*x3 - 1)^2 - 133);
  (-(4*x2*(x3 - 1)^2 + 3*(x3 - 1)^3 - 5*(x3 - 1)*(2*x2 + x3 - 1)^2))*((-156)*x3 + 4641*(2*x3 - 1)^6 + 9282*(2*x3 - 1)^5 + 4095*(2*x3 - 1)^4 - 1820*(2*x3 - 1)^3 - 1365*(2*x3 - 1)^2 + 107)/(32*x3 - 32);
  (-(30*x2*(x3 - 1)^3 + 12*(x3 - 1)^4 + 15*(x3 - 1)^2*(2*x2 + x3 - 1)^2 - 35*(x3 - 1)*(2*x2 + x3 - 1)^3))*((-210)*x3 + 1071*(2*x3 - 1)^5 + 2380*(2*x3 - 1)^4 + 1610*(2*x3 - 1)^3 + 210*(2*x3 - 1)^2 + 87)/(32*x3 - 32);
  1/32*(600*x3 + 765*(2*x3 - 1)^4 + 1700*(2*x3 - 1)^3 + 1230*(2*x3 - 1)^2 - 291)*(24*x2*(x3 - 1)^3 + 15*(x3 - 1)^4 - 42*(x3 - 1)^2*(2*x2 + x3 - 1)^2 - 28*(x3 - 1)*(2*x2 + x3 - 1)^3 + 63*(2*x2 + x3 - 1)^4);
  1/16*(252*x3 + 102*(2*x3 - 1)^3 + 204*(2*x3 - 1)^2 - 103)*(70*x2*(x3 - 1)^5 - 105*(-x3 + 1)^2*((-2)*x2 - x3 + 1)^4 + 231*(-x3 + 1)*((-2)*x2 - x3 + 1)^5 + 30*(x3 - 1)^6 + 70*(x3 - 1)^4*((-2)*x2 - x3 + 1)^2 + 210*(x3 - 1)^3*((-2)*x2 - x3 + 1)^3)/(x3 - 1);
  (-(476*x3 + 153*(2*x3 - 1)^2 - 149))*(60*x2*(x3 - 1)^6 + 35*(x3 - 1)^7 - 135*(x3 - 1)^5*(2*x2 + x3 - 1)^2 - 180*(x3 - 1)^4*(2*x2 + x3 - 1)^3 + 495*(x3 - 1)^3*(2*x2 + x3 - 1)^4 + 198*(x3 - 1)^2*(2*x2 + x3 - 1)^5 - 429*(x3 - 1)*(2*x2 + x3 - 1)^6)/(64*x3 - 64);
  (-(18*x3 - 1))*(630*x2*(x3 - 1)^7 + 280*(x3 - 1)^8 + 945*(x3 - 1)^6*(2*x2 + x3 - 1)^2 - 3465*(x3 - 1)^5*(2*x2 + x3 - 1)^3 - 3465*(x3 - 1)^4*(2*x2 + x3 - 1)^4 + 9009*(x3 - 1)^3*(2*x2 + x3 - 1)^5 + 3003*(x3 - 1)^2*(2*x2 + x3 - 1)^6 - 6435*(x3 - 1)*(2*x2 + x3 - 1)^7)/(128*x3 - 128);
  35/8*x2*(x3 - 1)^7 + 385/32*(-x3 + 1)*(x3 - 1)^5*(2*x2 + x3 - 1)^2 + 385/16*(-x3 + 1)*(x3 - 1)^4*(2*x2 + x3 - 1)^3 + 5005/32*(-x3 + 1)*(x3 - 1)*(2*x2 + x3 - 1)^6 + 715/16*(-x3 + 1)*(2*x2 + x3 - 1)^7 + 315/128*(x3 - 1)^8 + 5005/64*(x3 - 1)^4*(2*x2 + x3 - 1)^4 + 1001/16*(x3 - 1)^3*(2*x2 + x3 - 1)^5 + 12155/128*(2*x2 + x3 - 1)^8;
  1/16*(2*x1 + x2 + x3 - 1)*(252*x3 + 3978*(2*x3 - 1)^7 + 6188*(2*x3 - 1)^6 - 546*(2*x3 - 1)^5 - 4095*(2*x3 - 1)^4 - 910*(2*x3 - 1)^3 + 546*(2*x3 - 1)^2 - 133);
  1/16*(5*x2 + x3 - 1)*(2*x1 + x2 + x3 - 1)*((-156)*x3 + 4641*(2*x3 - 1)^6 + 9282*(2*x3 - 1)^5 + 4095*(2*x3 - 1)^4 - 1820*(2*x3 - 1)^3 - 1365*(2*x3 - 1)^2 + 107);
  (-(36*x2*(x3 - 1)^2 + 17*(x3 - 1)^3 - 21*(x3 - 1)*(2*x2 + x3 - 1)^2))*(2*x1 + x2 + x3 - 1)*((-210)*x3 + 1071*(2*x3 - 1)^5 + 2380*(2*x3 - 1)^4 + 1610*(2*x3 - 1)^3 + 210*(2*x3 - 1)^2 + 87)/(16*x3 - 16);
  1/8*(2*(x3 - 1)^3 - 21*(x3 - 1)*(2*x2 + x3 - 1)^2 + 21*(2*x2 + x3 - 1)^3)*(2*x1 + x2 + x3 - 1)*(600*x3 + 765*(2*x3 - 1)^4 + 1700*(2*x3 - 1)^3 + 1230*(2*x3 - 1)^2 - 291);
  1/8*(2*x1 + x2 + x3 - 1)*(252*x3 + 102*(2*x3 - 1)^3 + 204*(2*x3 - 1)^2 - 103)*(88*x2*(x3 - 1)^3 + 41*(x3 - 1)^4 - 18*(x3 - 1)^2*(2*x2 + x3 - 1)^2 - 180*(x3 - 1)*(2*x2 + x3 - 1)^3 + 165*(2*x2 + x3 - 1)^4);
  1/128*(476*x3 + 153*(2*x3 - 1)^2 - 149)*(2*x1 + x2 + x3 - 1)*((-90)*x2*(x3 - 1)^5 - 70*(-x3 + 1)^6 - 1485*(-x3 + 1)^2*((-2)*x2 - x3 + 1)^4 + 1287*(-x3 + 1)*((-2)*x2 - x3 + 1)^5 + 630*(x3 - 1)^4*((-2)*x2 - x3 + 1)^2 + 330*(x3 - 1)^3*((-2)*x2 - x3 + 1)^3)/(x3 - 1);
  (-(18*x3 - 1))*(2*x1 + x2 + x3 - 1)*(780*x2*(x3 - 1)^6 + 365*(x3 - 1)^7 + 165*(x3 - 1)^5*(2*x2 + x3 - 1)^2 - 3740*(x3 - 1)^4*(2*x2 + x3 - 1)^3 + 2145*(x3 - 1)^3*(2*x2 + x3 - 1)^4 + 6006*(x3 - 1)^2*(2*x2 + x3 - 1)^5 - 5005*(x3 - 1)*(2*x2 + x3 - 1)^6)/(64*x3 - 64);
  1/32*(2*x1 + x2 + x3 - 1)*(154*x2*(x3 - 1)^7 - 924*(-x3 + 1)^6*((-2)*x2 - x3 + 1)^2 - 6006*(-x3 + 1)^2*((-2)*x2 - x3 + 1)^6 + 4862*(-x3 + 1)*((-2)*x2 - x3 + 1)^7 + 98*(x3 - 1)^8 + 5005*(x3 - 1)^4*((-2)*x2 - x3 + 1)^4 + 3003*(x3 - 1)^3*((-2)*x2 - x3 + 1)^5)/(x3 - 1);
  1/32*(-(x2 + x3 - 1)^2 + 3*(2*x1 + x2 + x3 - 1)^2)*((-156)*x3 + 4641*(2*x3 - 1)^6 + 9282*(2*x3 - 1)^5 + 4095*(2*x3 - 1)^4 - 1820*(2*x3 - 1)^3 - 1365*(2*x3 - 1)^2 + 107);
  1/8*(-(x2 + x3 - 1)^2 + 3*(2*x1 + x2 + x3 - 1)^2)*(7*x2 + x3 - 1)*((-210)*x3 + 1071*(2*x3 - 1)^5 + 2380*(2*x3 - 1)^4 + 1610*(2*x3 - 1)^3 + 210*(2*x3 - 1)^2 + 87);
  ((x2 + x3 - 1)^2 - 3*(2*x1 + x2 + x3 - 1)^2)*(20*x2*(x3 - 1)^2 + 8*(x3 - 1)^3 - 9*(x3 - 1)*(2*x2 + x3 - 1)^2)*(600*x3 + 765*(2*x3 - 1)^4 + 1700*(2*x3 - 1)^3 + 1230*(2*x3 - 1)^2 - 291)/(8*x3 - 8);
  1/16*(-(x2 + x3 - 1)^2 + 3*(2*x1 + x2 + x3 - 1)^2)*(252*x3 + 102*(2*x3 - 1)^3 + 204*(2*x3 - 1)^2 - 103)*(126*x2*(x3 - 1)^3 - 225*(-x3 + 1)^2*((-2)*x2 - x3 + 1)^2 + 165*(-x3 + 1)*((-2)*x2 - x3 + 1)^3 + 68*(x3 - 1)^4)/(x3 - 1);
  1/128*(-(x2 + x3 - 1)^2 + 3*(2*x1 + x2 + x3 - 1)^2)*(476*x3 + 153*(2*x3 - 1)^2 - 149)*(200*x2*(x3 - 1)^3 + 71*(x3 - 1)^4 + 330*(x3 - 1)^2*(2*x2 + x3 - 1)^2 - 1100*(x3 - 1)*(2*x2 + x3 - 1)^3 + 715*(2*x2 + x3 - 1)^4);
  (18*x3 - 1)*((x2 + x3 - 1)^2 - 3*(2*x1 + x2 + x3 - 1)^2)*(770*x2*(x3 - 1)^5 + 386*(x3 - 1)^6 - 990*(x3 - 1)^4*(2*x2 + x3 - 1)^2 - 1430*(x3 - 1)^3*(2*x2 + x3 - 1)^3 + 5005*(x3 - 1)^2*(2*x2 + x3 - 1)^4 - 3003*(x3 - 1)*(2*x2 + x3 - 1)^5)/(64*x3 - 64);
  1/32*((x2 + x3 - 1)^2 - 3*(2*x1 + x2 + x3 - 1)^2)*(96*x2*(x3 - 1)^5 + 23*(x3 - 1)^6 + 780*(x3 - 1)^4*(2*x2 + x3 - 1)^2 - 1820*(x3 - 1)^3*(2*x2 + x3 - 1)^3 - 1365*(x3 - 1)^2*(2*x2 + x3 - 1)^4 + 5460*(x3 - 1)*(2*x2 + x3 - 1)^5 - 3094*(2*x2 + x3 - 1)^6);
  (-(6*x1*(x2 + x3 - 1)^3 + 3*(x2 + x3 - 1)^4 - 5*(x2 + x3 - 1)*(2*x1 + x2 + x3 - 1)^3))*((-210)*x3 + 1071*(2*x3 - 1)^5 + 2380*(2*x3 - 1)^4 + 1610*(2*x3 - 1)^3 + 210*(2*x3 - 1)^2 + 87)/(8*x2 + 8*x3 - 8);
  1/8*(9*x2 + x3 - 1)*(6*x1*(x2 + x3 - 1)^3 + 5*(-x2 - x3 + 1)*(2*x1 + x2 + x3 - 1)^3 + 3*(x2 + x3 - 1)^4)*(600*x3 + 765*(2*x3 - 1)^4 + 1700*(2*x3 - 1)^3 + 1230*(2*x3 - 1)^2 - 291)/(-x2 - x3 + 1);
  1/8*(6*x1*(x2 + x3 - 1)^3 + 5*(-x2 - x3 + 1)*(2*x1 + x2 + x3 - 1)^3 + 3*(x2 + x3 - 1)^4)*(140*x2*(x3 - 1)^2 + 55*(-x3 + 1)*((-2)*x2 - x3 + 1)^2 + 51*(x3 - 1)^3)*(252*x3 + 102*(2*x3 - 1)^3 + 204*(2*x3 - 1)^2 - 103)/((x3 - 1)*(x2 + x3 - 1));
  (-(476*x3 + 153*(2*x3 - 1)^2 - 149))*(6*x1*(x2 + x3 - 1)^3 + 3*(x2 + x3 - 1)^4 - 5*(x2 + x3 - 1)*(2*x1 + x2 + x3 - 1)^3)*(198*x2*(x3 - 1)^2 + 92*(x3 - 1)^3 - 231*(x3 - 1)*(2*x2 + x3 - 1)^2 + 143*(2*x2 + x3 - 1)^3)/(32*x2 + 32*x3 - 32);
  1/32*(18*x3 - 1)*(6*x1*(x2 + x3 - 1)^3 + 5*(-x2 - x3 + 1)*(2*x1 + x2 + x3 - 1)^3 + 3*(x2 + x3 - 1)^4)*((-168)*x2*(x3 - 1)^3 - 127*(x3 - 1)^4 + 1326*(x3 - 1)^2*(2*x2 + x3 - 1)^2 - 2548*(x3 - 1)*(2*x2 + x3 - 1)^3 + 1365*(2*x2 + x3 - 1)^4)/(-x2 - x3 + 1);
  1/16*(6*x1*(x2 + x3 - 1)^3 + 5*(-x2 - x3 + 1)*(2*x1 + x2 + x3 - 1)^3 + 3*(x2 + x3 - 1)^4)*(390*x2*(x3 - 1)^5 + 1820*(-x3 + 1)^3*(2*x2 + x3 - 1)^3 + 1547*(-x3 + 1)*(2*x2 + x3 - 1)^5 + 174*(x3 - 1)^6 + 3185*(x3 - 1)^2*(2*x2 + x3 - 1)^4)/((x3 - 1)*(x2 + x3 - 1));
  1/32*(3*(x2 + x3 - 1)^4 - 30*(x2 + x3 - 1)^2*(2*x1 + x2 + x3 - 1)^2 + 35*(2*x1 + x2 + x3 - 1)^4)*(600*x3 + 765*(2*x3 - 1)^4 + 1700*(2*x3 - 1)^3 + 1230*(2*x3 - 1)^2 - 291);
  1/8*(11*x2 + x3 - 1)*(3*(x2 + x3 - 1)^4 - 30*(x2 + x3 - 1)^2*(2*x1 + x2 + x3 - 1)^2 + 35*(2*x1 + x2 + x3 - 1)^4)*(252*x3 + 102*(2*x3 - 1)^3 + 204*(2*x3 - 1)^2 - 103);
  (-(476*x3 + 153*(2*x3 - 1)^2 - 149))*(108*x2*(x3 - 1)^2 + 37*(x3 - 1)^3 - 39*(x3 - 1)*(2*x2 + x3 - 1)^2)*(3*(x2 + x3 - 1)^4 - 30*(x2 + x3 - 1)^2*(2*x1 + x2 + x3 - 1)^2 + 35*(2*x1 + x2 + x3 - 1)^4)/(64*x3 - 64);
  1/64*(18*x3 - 1)*(3*(x2 + x3 - 1)^4 - 30*(x2 + x3 - 1)^2*(2*x1 + x2 + x3 - 1)^2 + 35*(2*x1 + x2 + x3 - 1)^4)*(858*x2*(x3 - 1)^3 - 819*(-x3 + 1)^2*((-2)*x2 - x3 + 1)^2 + 455*(-x3 + 1)*((-2)*x2 - x3 + 1)^3 + 372*(x3 - 1)^4)/(x3 - 1);
  1/32*(3*(x2 + x3 - 1)^4 - 30*(x2 + x3 - 1)^2*(2*x1 + x2 + x3 - 1)^2 + 35*(2*x1 + x2 + x3 - 1)^4)*((-336)*x2*(x3 - 1)^3 - 171*(x3 - 1)^4 + 840*(x3 - 1)^2*(2*x2 + x3 - 1)^2 - 1260*(x3 - 1)*(2*x2 + x3 - 1)^3 + 595*(2*x2 + x3 - 1)^4);
  1/8*(252*x3 + 102*(2*x3 - 1)^3 + 204*(2*x3 - 1)^2 - 103)*(30*x1*(x2 + x3 - 1)^5 + 63*(-x2 - x3 + 1)*((-2)*x1 - x2 - x3 + 1)^5 + 15*(x2 + x3 - 1)^6 + 70*(x2 + x3 - 1)^3*((-2)*x1 - x2 - x3 + 1)^3)/(x2 + x3 - 1);
  1/32*(13*x2 + x3 - 1)*(476*x3 + 153*(2*x3 - 1)^2 - 149)*(30*x1*(x2 + x3 - 1)^5 + 63*(-x2 - x3 + 1)*((-2)*x1 - x2 - x3 + 1)^5 + 15*(x2 + x3 - 1)^6 + 70*(x2 + x3 - 1)^3*((-2)*x1 - x2 - x3 + 1)^3)/(x2 + x3 - 1);
  (-1)/32*(18*x3 - 1)*(308*x2*(x3 - 1)^2 + 101*(x3 - 1)^3 - 105*(x3 - 1)*(2*x2 + x3 - 1)^2)*(30*x1*(x2 + x3 - 1)^5 + 15*(x2 + x3 - 1)^6 - 70*(x2 + x3 - 1)^3*(2*x1 + x2 + x3 - 1)^3 + 63*(x2 + x3 - 1)*(2*x1 + x2 + x3 - 1)^5)/((x3 - 1)*(x2 + x3 - 1));
  1/8*(30*x1*(x2 + x3 - 1)^5 + 63*(-x2 - x3 + 1)*((-2)*x1 - x2 - x3 + 1)^5 + 15*(x2 + x3 - 1)^6 + 70*(x2 + x3 - 1)^3*((-2)*x1 - x2 - x3 + 1)^3)*(195*x2*(x3 - 1)^2 + 81*(x3 - 1)^3 - 165*(x3 - 1)*((-2)*x2 - x3 + 1)^2 - 85*((-2)*x2 - x3 + 1)^3)/(x2 + x3 - 1);
  1/64*(476*x3 + 153*(2*x3 - 1)^2 - 149)*((-5)*(x2 + x3 - 1)^6 + 105*(x2 + x3 - 1)^4*(2*x1 + x2 + x3 - 1)^2 - 315*(x2 + x3 - 1)^2*(2*x1 + x2 + x3 - 1)^4 + 231*(2*x1 + x2 + x3 - 1)^6);
  1/16*(18*x3 - 1)*(15*x2 + x3 - 1)*((-5)*(x2 + x3 - 1)^6 + 105*(x2 + x3 - 1)^4*(2*x1 + x2 + x3 - 1)^2 - 315*(x2 + x3 - 1)^2*(2*x1 + x2 + x3 - 1)^4 + 231*(2*x1 + x2 + x3 - 1)^6);
  (104*x2*(x3 - 1)^2 + 33*(x3 - 1)^3 - 34*(x3 - 1)*(2*x2 + x3 - 1)^2)*(5*(x2 + x3 - 1)^6 - 105*(x2 + x3 - 1)^4*(2*x1 + x2 + x3 - 1)^2 + 315*(x2 + x3 - 1)^2*(2*x1 + x2 + x3 - 1)^4 - 231*(2*x1 + x2 + x3 - 1)^6)/(16*x3 - 16);
  (-(18*x3 - 1))*(70*x1*(x2 + x3 - 1)^7 + 35*(x2 + x3 - 1)^8 - 315*(x2 + x3 - 1)^5*(2*x1 + x2 + x3 - 1)^3 + 693*(x2 + x3 - 1)^3*(2*x1 + x2 + x3 - 1)^5 - 429*(x2 + x3 - 1)*(2*x1 + x2 + x3 - 1)^7)/(16*x2 + 16*x3 - 16);
  (-(17*x2 + x3 - 1))*(70*x1*(x2 + x3 - 1)^7 + 35*(x2 + x3 - 1)^8 - 315*(x2 + x3 - 1)^5*(2*x1 + x2 + x3 - 1)^3 + 693*(x2 + x3 - 1)^3*(2*x1 + x2 + x3 - 1)^5 - 429*(x2 + x3 - 1)*(2*x1 + x2 + x3 - 1)^7)/(16*x2 + 16*x3 - 16);
  35/128*(x2 + x3 - 1)^8 - 315/32*(x2 + x3 - 1)^6*(2*x1 + x2 + x3 - 1)^2 + 3465/64*(x2 + x3 - 1)^4*(2*x1 + x2 + x3 - 1)^4 - 3003/32*(x2 + x3 - 1)^2*(2*x1 + x2 + x3 - 1)^6 + 6435/128*(2*x1 + x2 + x3 - 1)^8;
  167960*x3^9 - 680238*x3^8 + 1145664*x3^7 - 1039584*x3^6 + 550368*x3^5 - 171990*x3^4 + 30576*x3^3 - 2808*x3^2 + 108*x3 - 1;
  1/128*(3*x2 + x3 - 1)*((-1456)*x3 + 62985*(2*x3 - 1)^8 + 100776*(2*x3 - 1)^7 - 18564*(2*x3 - 1)^6 - 86632*(2*x3 - 1)^5 - 17290*(2*x3 - 1)^4 + 18200*(2*x3 - 1)^3 + 4732*(2*x3 - 1)^2 + 609);
  (-(4*x2*(x3 - 1)^2 + 3*(x3 - 1)^3 - 5*(x3 - 1)*(2*x2 + x3 - 1)^2))*(616*x3 + 9690*(2*x3 - 1)^7 + 20349*(2*x3 - 1)^6 + 8568*(2*x3 - 1)^5 - 6545*(2*x3 - 1)^4 - 4830*(2*x3 - 1)^3 - 105*(2*x3 - 1)^2 - 287)/(32*x3 - 32);
  (-(30*x2*(x3 - 1)^3 + 12*(x3 - 1)^4 + 15*(x3 - 1)^2*(2*x2 + x3 - 1)^2 - 35*(x3 - 1)*(2*x2 + x3 - 1)^3))*((-600)*x3 + 4845*(2*x3 - 1)^6 + 11628*(2*x3 - 1)^5 + 8415*(2*x3 - 1)^4 + 680*(2*x3 - 1)^3 - 1245*(2*x3 - 1)^2 + 301)/(64*x3 - 64);
  1/32*(24*x2*(x3 - 1)^3 + 15*(x3 - 1)^4 - 42*(x3 - 1)^2*(2*x2 + x3 - 1)^2 - 28*(x3 - 1)*(2*x2 + x3 - 1)^3 + 63*(2*x2 + x3 - 1)^4)*((-20)*x3 + 1938*(2*x3 - 1)^5 + 4845*(2*x3 - 1)^4 + 4080*(2*x3 - 1)^3 + 1190*(2*x3 - 1)^2 - 21);
  1/256*(5848*x3 + 4845*(2*x3 - 1)^4 + 11628*(2*x3 - 1)^3 + 9486*(2*x3 - 1)^2 - 2687)*(70*x2*(x3 - 1)^5 - 105*(-x3 + 1)^2*((-2)*x2 - x3 + 1)^4 + 231*(-x3 + 1)*((-2)*x2 - x3 + 1)^5 + 30*(x3 - 1)^6 + 70*(x3 - 1)^4*((-2)*x2 - x3 + 1)^2 + 210*(x3 - 1)^3*((-2)*x2 - x3 + 1)^3)/(x3 - 1);
  (-(1584*x3 + 570*(2*x3 - 1)^3 + 1197*(2*x3 - 1)^2 - 631))*(60*x2*(x3 - 1)^6 + 35*(x3 - 1)^7 - 135*(x3 - 1)^5*(2*x2 + x3 - 1)^2 - 180*(x3 - 1)^4*(2*x2 + x3 - 1)^3 + 495*(x3 - 1)^3*(2*x2 + x3 - 1)^4 + 198*(x3 - 1)^2*(2*x2 + x3 - 1)^5 - 429*(x3 - 1)*(2*x2 + x3 - 1)^6)/(64*x3 - 64);
  (-(304*x3 + 95*(2*x3 - 1)^2 - 93))*(630*x2*(x3 - 1)^7 + 280*(x3 - 1)^8 + 945*(x3 - 1)^6*(2*x2 + x3 - 1)^2 - 3465*(x3 - 1)^5*(2*x2 + x3 - 1)^3 - 3465*(x3 - 1)^4*(2*x2 + x3 - 1)^4 + 9009*(x3 - 1)^3*(2*x2 + x3 - 1)^5 + 3003*(x3 - 1)^2*(2*x2 + x3 - 1)^6 - 6435*(x3 - 1)*(2*x2 + x3 - 1)^7)/(256*x3 - 256);
  1/128*(20*x3 - 1)*(560*x2*(x3 - 1)^7 - 1540*(-x3 + 1)^6*(2*x2 + x3 - 1)^2 + 3080*(-x3 + 1)^5*(2*x2 + x3 - 1)^3 - 20020*(-x3 + 1)^2*(2*x2 + x3 - 1)^6 + 5720*(-x3 + 1)*(2*x2 + x3 - 1)^7 + 315*(x3 - 1)^8 + 10010*(x3 - 1)^4*(2*x2 + x3 - 1)^4 + 8008*(x3 - 1)^3*(2*x2 + x3 - 1)^5 + 12155*(2*x2 + x3 - 1)^8);
  1/256*(1386*x2*(x3 - 1)^9 - 18018*(-x3 + 1)^6*((-2)*x2 - x3 + 1)^4 + 54054*(-x3 + 1)^5*((-2)*x2 - x3 + 1)^5 - 21879*(-x3 + 1)^2*((-2)*x2 - x3 + 1)^8 + 46189*(-x3 + 1)*((-2)*x2 - x3 + 1)^9 + 630*(x3 - 1)^10 + 2772*(x3 - 1)^8*((-2)*x2 - x3 + 1)^2 + 12012*(x3 - 1)^7*((-2)*x2 - x3 + 1)^3 + 36036*(x3 - 1)^4*((-2)*x2 - x3 + 1)^6 + 87516*(x3 - 1)^3*((-2)*x2 - x3 + 1)^7)/(x3 - 1);
  1/128*(2*x1 + x2 + x3 - 1)*((-1456)*x3 + 62985*(2*x3 - 1)^8 + 100776*(2*x3 - 1)^7 - 18564*(2*x3 - 1)^6 - 86632*(2*x3 - 1)^5 - 17290*(2*x3 - 1)^4 + 18200*(2*x3 - 1)^3 + 4732*(2*x3 - 1)^2 + 609);
  1/16*(5*x2 + x3 - 1)*(2*x1 + x2 + x3 - 1)*(616*x3 + 9690*(2*x3 - 1)^7 + 20349*(2*x3 - 1)^6 + 8568*(2*x3 - 1)^5 - 6545*(2*x3 - 1)^4 - 4830*(2*x3 - 1)^3 - 105*(2*x3 - 1)^2 - 287);
  (-(36*x2*(x3 - 1)^2 + 17*(x3 - 1)^3 - 21*(x3 - 1)*(2*x2 + x3 - 1)^2))*(2*x1 + x2 + x3 - 1)*((-600)*x3 + 4845*(2*x3 - 1)^6 + 11628*(2*x3 - 1)^5 + 8415*(2*x3 - 1)^4 + 680*(2*x3 - 1)^3 - 1245*(2*x3 - 1)^2 + 301)/(32*x3 - 32);
  1/8*(2*(x3 - 1)^3 - 21*(x3 - 1)*(2*x2 + x3 - 1)^2 + 21*(2*x2 + x3 - 1)^3)*(2*x1 + x2 + x3 - 1)*((-20)*x3 + 1938*(2*x3 - 1)^5 + 4845*(2*x3 - 1)^4 + 4080*(2*x3 - 1)^3 + 1190*(2*x3 - 1)^2 - 21);
  1/128*(2*x1 + x2 + x3 - 1)*(5848*x3 + 4845*(2*x3 - 1)^4 + 11628*(2*x3 - 1)^3 + 9486*(2*x3 - 1)^2 - 2687)*(88*x2*(x3 - 1)^3 + 41*(x3 - 1)^4 - 18*(x3 - 1)^2*(2*x2 + x3 - 1)^2 - 180*(x3 - 1)*(2*x2 + x3 - 1)^3 + 165*(2*x2 + x3 - 1)^4);
  1/128*(2*x1 + x2 + x3 - 1)*(1584*x3 + 570*(2*x3 - 1)^3 + 1197*(2*x3 - 1)^2 - 631)*((-90)*x2*(x3 - 1)^5 - 70*(-x3 + 1)^6 - 1485*(-x3 + 1)^2*((-2)*x2 - x3 + 1)^4 + 1287*(-x3 + 1)*((-2)*x2 - x3 + 1)^5 + 630*(x3 - 1)^4*((-2)*x2 - x3 + 1)^2 + 330*(x3 - 1)^3*((-2)*x2 - x3 + 1)^3)/(x3 - 1);
  (-(304*x3 + 95*(2*x3 - 1)^2 - 93))*(2*x1 + x2 + x3 - 1)*(780*x2*(x3 - 1)^6 + 365*(x3 - 1)^7 + 165*(x3 - 1)^5*(2*x2 + x3 - 1)^2 - 3740*(x3 - 1)^4*(2*x2 + x3 - 1)^3 + 2145*(x3 - 1)^3*(2*x2 + x3 - 1)^4 + 6006*(x3 - 1)^2*(2*x2 + x3 - 1)^5 - 5005*(x3 - 1)*(2*x2 + x3 - 1)^6)/(128*x3 - 128);
  1/32*(20*x3 - 1)*(2*x1 + x2 + x3 - 1)*(154*x2*(x3 - 1)^7 - 924*(-x3 + 1)^6*((-2)*x2 - x3 + 1)^2 - 6006*(-x3 + 1)^2*((-2)*x2 - x3 + 1)^6 + 4862*(-x3 + 1)*((-2)*x2 - x3 + 1)^7 + 98*(x3 - 1)^8 + 5005*(x3 - 1)^4*((-2)*x2 - x3 + 1)^4 + 3003*(x3 - 1)^3*((-2)*x2 - x3 + 1)^5)/(x3 - 1);
  1/128*(2*x1 + x2 + x3 - 1)*(1680*x2*(x3 - 1)^7 + 13832*(-x3 + 1)^5*(2*x2 + x3 - 1)^3 - 30940*(-x3 + 1)^2*(2*x2 + x3 - 1)^6 + 47736*(-x3 + 1)*(2*x2 + x3 - 1)^7 + 791*(x3 - 1)^8 + 1092*(x3 - 1)^6*(2*x2 + x3 - 1)^2 + 2730*(x3 - 1)^4*(2*x2 + x3 - 1)^4 + 50232*(x3 - 1)^3*(2*x2 + x3 - 1)^5 + 37791*(2*x2 + x3 - 1)^8);
  1/32*(-(x2 + x3 - 1)^2 + 3*(2*x1 + x2 + x3 - 1)^2)*(616*x3 + 9690*(2*x3 - 1)^7 + 20349*(2*x3 - 1)^6 + 8568*(2*x3 - 1)^5 - 6545*(2*x3 - 1)^4 - 4830*(2*x3 - 1)^3 - 105*(2*x3 - 1)^2 - 287);
  1/16*(-(x2 + x3 - 1)^2 + 3*(2*x1 + x2 + x3 - 1)^2)*(7*x2 + x3 - 1)*((-600)*x3 + 4845*(2*x3 - 1)^6 + 11628*(2*x3 - 1)^5 + 8415*(2*x3 - 1)^4 + 680*(2*x3 - 1)^3 - 1245*(2*x3 - 1)^2 + 301);
  ((x2 + x3 - 1)^2 - 3*(2*x1 + x2 + x3 - 1)^2)*(20*x2*(x3 - 1)^2 + 8*(x3 - 1)^3 - 9*(x3 - 1)*(2*x2 + x3 - 1)^2)*((-20)*x3 + 1938*(2*x3 - 1)^5 + 4845*(2*x3 - 1)^4 + 4080*(2*x3 - 1)^3 + 1190*(2*x3 - 1)^2 - 21)/(8*x3 - 8);
  1/256*(-(x2 + x3 - 1)^2 + 3*(2*x1 + x2 + x3 - 1)^2)*(126*x2*(x3 - 1)^3 - 225*(-x3 + 1)^2*((-2)*x2 - x3 + 1)^2 + 165*(-x3 + 1)*((-2)*x2 - x3 + 1)^3 + 68*(x3 - 1)^4)*(5848*x3 + 4845*(2*x3 - 1)^4 + 11628*(2*x3 - 1)^3 + 9486*(2*x3 - 1)^2 - 2687)/(x3 - 1);
  1/128*(-(x2 + x3 - 1)^2 + 3*(2*x1 + x2 + x3 - 1)^2)*(1584*x3 + 570*(2*x3 - 1)^3 + 1197*(2*x3 - 1)^2 - 631)*(200*x2*(x3 - 1)^3 + 71*(x3 - 1)^4 + 330*(x3 - 1)^2*(2*x2 + x3 - 1)^2 - 1100*(x3 - 1)*(2*x2 + x3 - 1)^3 + 715*(2*x2 + x3 - 1)^4);
  ((x2 + x3 - 1)^2 - 3*(2*x1 + x2 + x3 - 1)^2)*(304*x3 + 95*(2*x3 - 1)^2 - 93)*(770*x2*(x3 - 1)^5 + 386*(x3 - 1)^6 - 990*(x3 - 1)^4*(2*x2 + x3 - 1)^2 - 1430*(x3 - 1)^3*(2*x2 + x3 - 1)^3 + 5005*(x3 - 1)^2*(2*x2 + x3 - 1)^4 - 3003*(x3 - 1)*(2*x2 + x3 - 1)^5)/(128*x3 - 128);
  1/32*(20*x3 - 1)*((x2 + x3 - 1)^2 - 3*(2*x1 + x2 + x3 - 1)^2)*(96*x2*(x3 - 1)^5 + 23*(x3 - 1)^6 + 780*(x3 - 1)^4*(2*x2 + x3 - 1)^2 - 1820*(x3 - 1)^3*(2*x2 + x3 - 1)^3 - 1365*(x3 - 1)^2*(2*x2 + x3 - 1)^4 + 5460*(x3 - 1)*(2*x2 + x3 - 1)^5 - 3094*(2*x2 + x3 - 1)^6);
  1/64*(-(x2 + x3 - 1)^2 + 3*(2*x1 + x2 + x3 - 1)^2)*(910*x2*(x3 - 1)^7 - 819*(-x3 + 1)^6*((-2)*x2 - x3 + 1)^2 + 4641*(-x3 + 1)^3*((-2)*x2 - x3 + 1)^5 - 23205*(-x3 + 1)^2*((-2)*x2 - x3 + 1)^6 + 12597*(-x3 + 1)*((-2)*x2 - x3 + 1)^7 + 448*(x3 - 1)^8 + 5005*(x3 - 1)^5*((-2)*x2 - x3 + 1)^3 + 11375*(x3 - 1)^4*((-2)*x2 - x3 + 1)^4)/(x3 - 1);
  (-(6*x1*(x2 + x3 - 1)^3 + 3*(x2 + x3 - 1)^4 - 5*(x2 + x3 - 1)*(2*x1 + x2 + x3 - 1)^3))*((-600)*x3 + 4845*(2*x3 - 1)^6 + 11628*(2*x3 - 1)^5 + 8415*(2*x3 - 1)^4 + 680*(2*x3 - 1)^3 - 1245*(2*x3 - 1)^2 + 301)/(16*x2 + 16*x3 - 16);
  1/8*(9*x2 + x3 - 1)*(6*x1*(x2 + x3 - 1)^3 + 5*(-x2 - x3 + 1)*(2*x1 + x2 + x3 - 1)^3 + 3*(x2 + x3 - 1)^4)*((-20)*x3 + 1938*(2*x3 - 1)^5 + 4845*(2*x3 - 1)^4 + 4080*(2*x3 - 1)^3 + 1190*(2*x3 - 1)^2 - 21)/(-x2 - x3 + 1);
  1/128*(6*x1*(x2 + x3 - 1)^3 + 5*(-x2 - x3 + 1)*(2*x1 + x2 + x3 - 1)^3 + 3*(x2 + x3 - 1)^4)*(140*x2*(x3 - 1)^2 + 55*(-x3 + 1)*((-2)*x2 - x3 + 1)^2 + 51*(x3 - 1)^3)*(5848*x3 + 4845*(2*x3 - 1)^4 + 11628*(2*x3 - 1)^3 + 9486*(2*x3 - 1)^2 - 2687)/((x3 - 1)*(x2 + x3 - 1));
  (-(6*x1*(x2 + x3 - 1)^3 + 3*(x2 + x3 - 1)^4 - 5*(x2 + x3 - 1)*(2*x1 + x2 + x3 - 1)^3))*(1584*x3 + 570*(2*x3 - 1)^3 + 1197*(2*x3 - 1)^2 - 631)*(198*x2*(x3 - 1)^2 + 92*(x3 - 1)^3 - 231*(x3 - 1)*(2*x2 + x3 - 1)^2 + 143*(2*x2 + x3 - 1)^3)/(32*x2 + 32*x3 - 32);
  (304*x3 + 95*(2*x3 - 1)^2 - 93)*(6*x1*(x2 + x3 - 1)^3 + 3*(x2 + x3 - 1)^4 - 5*(x2 + x3 - 1)*(2*x1 + x2 + x3 - 1)^3)*(168*x2*(x3 - 1)^3 + 127*(x3 - 1)^4 - 1326*(x3 - 1)^2*(2*x2 + x3 - 1)^2 + 2548*(x3 - 1)*(2*x2 + x3 - 1)^3 - 1365*(2*x2 + x3 - 1)^4)/(64*x2 + 64*x3 - 64);
  1/16*(20*x3 - 1)*(6*x1*(x2 + x3 - 1)^3 + 5*(-x2 - x3 + 1)*(2*x1 + x2 + x3 - 1)^3 + 3*(x2 + x3 - 1)^4)*(390*x2*(x3 - 1)^5 + 1820*(-x3 + 1)^3*(2*x2 + x3 - 1)^3 + 1547*(-x3 + 1)*(2*x2 + x3 - 1)^5 + 174*(x3 - 1)^6 + 3185*(x3 - 1)^2*(2*x2 + x3 - 1)^4)/((x3 - 1)*(x2 + x3 - 1));
  (-(6*x1*(x2 + x3 - 1)^3 + 3*(x2 + x3 - 1)^4 - 5*(x2 + x3 - 1)*(2*x1 + x2 + x3 - 1)^3))*(588*x2*(x3 - 1)^5 + 317*(x3 - 1)^6 - 1995*(x3 - 1)^4*(2*x2 + x3 - 1)^2 + 980*(x3 - 1)^3*(2*x2 + x3 - 1)^3 + 8925*(x3 - 1)^2*(2*x2 + x3 - 1)^4 - 14994*(x3 - 1)*(2*x2 + x3 - 1)^5 + 6783*(2*x2 + x3 - 1)^6)/(32*x2 + 32*x3 - 32);
  1/32*(3*(x2 + x3 - 1)^4 - 30*(x2 + x3 - 1)^2*(2*x1 + x2 + x3 - 1)^2 + 35*(2*x1 + x2 + x3 - 1)^4)*((-20)*x3 + 1938*(2*x3 - 1)^5 + 4845*(2*x3 - 1)^4 + 4080*(2*x3 - 1)^3 + 1190*(2*x3 - 1)^2 - 21);
  1/128*(11*x2 + x3 - 1)*(3*(x2 + x3 - 1)^4 - 30*(x2 + x3 - 1)^2*(2*x1 + x2 + x3 - 1)^2 + 35*(2*x1 + x2 + x3 - 1)^4)*(5848*x3 + 4845*(2*x3 - 1)^4 + 11628*(2*x3 - 1)^3 + 9486*(2*x3 - 1)^2 - 2687);
  (-(108*x2*(x3 - 1)^2 + 37*(x3 - 1)^3 - 39*(x3 - 1)*(2*x2 + x3 - 1)^2))*(3*(x2 + x3 - 1)^4 - 30*(x2 + x3 - 1)^2*(2*x1 + x2 + x3 - 1)^2 + 35*(2*x1 + x2 + x3 - 1)^4)*(1584*x3 + 570*(2*x3 - 1)^3 + 1197*(2*x3 - 1)^2 - 631)/(64*x3 - 64);
  1/128*(304*x3 + 95*(2*x3 - 1)^2 - 93)*(3*(x2 + x3 - 1)^4 - 30*(x2 + x3 - 1)^2*(2*x1 + x2 + x3 - 1)^2 + 35*(2*x1 + x2 + x3 - 1)^4)*(858*x2*(x3 - 1)^3 - 819*(-x3 + 1)^2*((-2)*x2 - x3 + 1)^2 + 455*(-x3 + 1)*((-2)*x2 - x3 + 1)^3 + 372*(x3 - 1)^4)/(x3 - 1);
  1/32*(20*x3 - 1)*(3*(x2 + x3 - 1)^4 - 30*(x2 + x3 - 1)^2*(2*x1 + x2 + x3 - 1)^2 + 35*(2*x1 + x2 + x3 - 1)^4)*((-336)*x2*(x3 - 1)^3 - 171*(x3 - 1)^4 + 840*(x3 - 1)^2*(2*x2 + x3 - 1)^2 - 1260*(x3 - 1)*(2*x2 + x3 - 1)^3 + 595*(2*x2 + x3 - 1)^4);
  (-(3*(x2 + x3 - 1)^4 - 30*(x2 + x3 - 1)^2*(2*x1 + x2 + x3 - 1)^2 + 35*(2*x1 + x2 + x3 - 1)^4))*(330*x2*(x3 - 1)^5 + 114*(x3 - 1)^6 + 1170*(x3 - 1)^4*(2*x2 + x3 - 1)^2 - 5270*(x3 - 1)^3*(2*x2 + x3 - 1)^3 + 6885*(x3 - 1)^2*(2*x2 + x3 - 1)^4 - 2907*(x3 - 1)*(2*x2 + x3 - 1)^5)/(64*x3 - 64);
  1/128*(30*x1*(x2 + x3 - 1)^5 + 63*(-x2 - x3 + 1)*((-2)*x1 - x2 - x3 + 1)^5 + 15*(x2 + x3 - 1)^6 + 70*(x2 + x3 - 1)^3*((-2)*x1 - x2 - x3 + 1)^3)*(5848*x3 + 4845*(2*x3 - 1)^4 + 11628*(2*x3 - 1)^3 + 9486*(2*x3 - 1)^2 - 2687)/(x2 + x3 - 1);
  1/32*(13*x2 + x3 - 1)*(1584*x3 + 570*(2*x3 - 1)^3 + 1197*(2*x3 - 1)^2 - 631)*(30*x1*(x2 + x3 - 1)^5 + 63*(-x2 - x3 + 1)*((-2)*x1 - x2 - x3 + 1)^5 + 15*(x2 + x3 - 1)^6 + 70*(x2 + x3 - 1)^3*((-2)*x1 - x2 - x3 + 1)^3)/(x2 + x3 - 1);
  (-1)/64*(304*x3 + 95*(2*x3 - 1)^2 - 93)*(308*x2*(x3 - 1)^2 + 101*(x3 - 1)^3 - 105*(x3 - 1)*(2*x2 + x3 - 1)^2)*(30*x1*(x2 + x3 - 1)^5 + 15*(x2 + x3 - 1)^6 - 70*(x2 + x3 - 1)^3*(2*x1 + x2 + x3 - 1)^3 + 63*(x2 + x3 - 1)*(2*x1 + x2 + x3 - 1)^5)/((x3 - 1)*(x2 + x3 - 1));
  1/8*(20*x3 - 1)*(30*x1*(x2 + x3 - 1)^5 + 63*(-x2 - x3 + 1)*((-2)*x1 - x2 - x3 + 1)^5 + 15*(x2 + x3 - 1)^6 + 70*(x2 + x3 - 1)^3*((-2)*x1 - x2 - x3 + 1)^3)*(195*x2*(x3 - 1)^2 + 81*(x3 - 1)^3 - 165*(x3 - 1)*((-2)*x2 - x3 + 1)^2 - 85*((-2)*x2 - x3 + 1)^3)/(x2 + x3 - 1);
  1/32*(30*x1*(x2 + x3 - 1)^5 + 63*(-x2 - x3 + 1)*((-2)*x1 - x2 - x3 + 1)^5 + 15*(x2 + x3 - 1)^6 + 70*(x2 + x3 - 1)^3*((-2)*x1 - x2 - x3 + 1)^3)*((-968)*x2*(x3 - 1)^3 - 455*(x3 - 1)^4 + 1734*(x3 - 1)^2*(2*x2 + x3 - 1)^2 - 2244*(x3 - 1)*(2*x2 + x3 - 1)^3 + 969*(2*x2 + x3 - 1)^4)/(x2 + x3 - 1);
  1/64*(1584*x3 + 570*(2*x3 - 1)^3 + 1197*(2*x3 - 1)^2 - 631)*((-5)*(x2 + x3 - 1)^6 + 105*(x2 + x3 - 1)^4*(2*x1 + x2 + x3 - 1)^2 - 315*(x2 + x3 - 1)^2*(2*x1 + x2 + x3 - 1)^4 + 231*(2*x1 + x2 + x3 - 1)^6);
  1/32*(15*x2 + x3 - 1)*(304*x3 + 95*(2*x3 - 1)^2 - 93)*((-5)*(x2 + x3 - 1)^6 + 105*(x2 + x3 - 1)^4*(2*x1 + x2 + x3 - 1)^2 - 315*(x2 + x3 - 1)^2*(2*x1 + x2 + x3 - 1)^4 + 231*(2*x1 + x2 + x3 - 1)^6);
  (20*x3 - 1)*(104*x2*(x3 - 1)^2 + 33*(x3 - 1)^3 - 34*(x3 - 1)*(2*x2 + x3 - 1)^2)*(5*(x2 + x3 - 1)^6 - 105*(x2 + x3 - 1)^4*(2*x1 + x2 + x3 - 1)^2 + 315*(x2 + x3 - 1)^2*(2*x1 + x2 + x3 - 1)^4 - 231*(2*x1 + x2 + x3 - 1)^6)/(16*x3 - 16);
  1/128*(2550*x2*(x3 - 1)^3 - 1989*(-x3 + 1)^2*((-2)*x2 - x3 + 1)^2 + 969*(-x3 + 1)*((-2)*x2 - x3 + 1)^3 + 1028*(x3 - 1)^4)*((-5)*(x2 + x3 - 1)^6 + 105*(x2 + x3 - 1)^4*(2*x1 + x2 + x3 - 1)^2 - 315*(x2 + x3 - 1)^2*(2*x1 + x2 + x3 - 1)^4 + 231*(2*x1 + x2 + x3 - 1)^6)/(x3 - 1);
  (-(304*x3 + 95*(2*x3 - 1)^2 - 93))*(70*x1*(x2 + x3 - 1)^7 + 35*(x2 + x3 - 1)^8 - 315*(x2 + x3 - 1)^5*(2*x1 + x2 + x3 - 1)^3 + 693*(x2 + x3 - 1)^3*(2*x1 + x2 + x3 - 1)^5 - 429*(x2 + x3 - 1)*(2*x1 + x2 + x3 - 1)^7)/(32*x2 + 32*x3 - 32);
  (-(20*x3 - 1))*(17*x2 + x3 - 1)*(70*x1*(x2 + x3 - 1)^7 + 35*(x2 + x3 - 1)^8 - 315*(x2 + x3 - 1)^5*(2*x1 + x2 + x3 - 1)^3 + 693*(x2 + x3 - 1)^3*(2*x1 + x2 + x3 - 1)^5 - 429*(x2 + x3 - 1)*(2*x1 + x2 + x3 - 1)^7)/(16*x2 + 16*x3 - 16);
  1/64*(540*x2*(x3 - 1)^2 + 171*(-x3 + 1)*((-2)*x2 - x3 + 1)^2 + 167*(x3 - 1)^3)*(70*x1*(x2 + x3 - 1)^7 + 315*(-x2 - x3 + 1)^5*(2*x1 + x2 + x3 - 1)^3 + 429*(-x2 - x3 + 1)*(2*x1 + x2 + x3 - 1)^7 + 35*(x2 + x3 - 1)^8 + 693*(x2 + x3 - 1)^3*(2*x1 + x2 + x3 - 1)^5)/((x3 - 1)*(x2 + x3 - 1));
  1/128*(20*x3 - 1)*(35*(x2 + x3 - 1)^8 - 1260*(x2 + x3 - 1)^6*(2*x1 + x2 + x3 - 1)^2 + 6930*(x2 + x3 - 1)^4*(2*x1 + x2 + x3 - 1)^4 - 12012*(x2 + x3 - 1)^2*(2*x1 + x2 + x3 - 1)^6 + 6435*(2*x1 + x2 + x3 - 1)^8);
  1/128*(19*x2 + x3 - 1)*(35*(x2 + x3 - 1)^8 - 1260*(x2 + x3 - 1)^6*(2*x1 + x2 + x3 - 1)^2 + 6930*(x2 + x3 - 1)^4*(2*x1 + x2 + x3 - 1)^4 - 12012*(x2 + x3 - 1)^2*(2*x1 + x2 + x3 - 1)^6 + 6435*(2*x1 + x2 + x3 - 1)^8);
  1/128*(630*x1*(x2 + x3 - 1)^9 + 18018*(-x2 - x3 + 1)^5*((-2)*x1 - x2 - x3 + 1)^5 + 12155*(-x2 - x3 + 1)*((-2)*x1 - x2 - x3 + 1)^9 + 315*(x2 + x3 - 1)^10 + 4620*(x2 + x3 - 1)^7*((-2)*x1 - x2 - x3 + 1)^3 + 25740*(x2 + x3 - 1)^3*((-2)*x1 - x2 - x3 + 1)^7)/(x2 + x3 - 1);
  646646*x3^10 - 2939300*x3^9 + 5668650*x3^8 - 6046560*x3^7 + 3898440*x3^6 - 1559376*x3^5 + 382200*x3^4 - 54600*x3^3 + 4095*x3^2 - 130*x3 + 1;
  (-1)/128*(3*x2 + x3 - 1)*(2394*x3 - 124355*(2*x3 - 1)^9 - 203490*(2*x3 - 1)^8 + 58140*(2*x3 - 1)^7 + 217056*(2*x3 - 1)^6 + 36414*(2*x3 - 1)^5 - 64260*(2*x3 - 1)^4 - 17220*(2*x3 - 1)^3 + 5040*(2*x3 - 1)^2 - 1239);
  (-(4*x2*(x3 - 1)^2 + 3*(x3 - 1)^3 - 5*(x3 - 1)*(2*x2 + x3 - 1)^2))*(2640*x3 + 159885*(2*x3 - 1)^8 + 348840*(2*x3 - 1)^7 + 135660*(2*x3 - 1)^6 - 162792*(2*x3 - 1)^5 - 117810*(2*x3 - 1)^4 + 4760*(2*x3 - 1)^3 + 14700*(2*x3 - 1)^2 - 1499)/(256*x3 - 256);
  (-(30*x2*(x3 - 1)^3 + 12*(x3 - 1)^4 + 15*(x3 - 1)^2*(2*x2 + x3 - 1)^2 - 35*(x3 - 1)*(2*x2 + x3 - 1)^3))*(182*x3 + 10659*(2*x3 - 1)^7 + 27132*(2*x3 - 1)^6 + 20349*(2*x3 - 1)^5 - 5355*(2*x3 - 1)^3 - 1428*(2*x3 - 1)^2 - 59)/(64*x3 - 64);
  1/512*(24*x2*(x3 - 1)^3 + 15*(x3 - 1)^4 - 42*(x3 - 1)^2*(2*x2 + x3 - 1)^2 - 28*(x3 - 1)*(2*x2 + x3 - 1)^3 + 63*(2*x2 + x3 - 1)^4)*((-10812)*x3 + 74613*(2*x3 - 1)^6 + 203490*(2*x3 - 1)^5 + 188955*(2*x3 - 1)^4 + 58140*(2*x3 - 1)^3 - 6885*(2*x3 - 1)^2 + 5011);
  1/256*(3150*x3 + 13167*(2*x3 - 1)^5 + 35910*(2*x3 - 1)^4 + 34770*(2*x3 - 1)^3 + 13680*(2*x3 - 1)^2 - 1669)*(70*x2*(x3 - 1)^5 - 105*(-x3 + 1)^2*((-2)*x2 - x3 + 1)^4 + 231*(-x3 + 1)*((-2)*x2 - x3 + 1)^5 + 30*(x3 - 1)^6 + 70*(x3 - 1)^4*((-2)*x2 - x3 + 1)^2 + 210*(x3 - 1)^3*((-2)*x2 - x3 + 1)^3)/(x3 - 1);
  (-(11704*x3 + 7315*(2*x3 - 1)^4 + 18620*(2*x3 - 1)^3 + 16530*(2*x3 - 1)^2 - 5209))*(60*x2*(x3 - 1)^6 + 35*(x3 - 1)^7 - 135*(x3 - 1)^5*(2*x2 + x3 - 1)^2 - 180*(x3 - 1)^4*(2*x2 + x3 - 1)^3 + 495*(x3 - 1)^3*(2*x2 + x3 - 1)^4 + 198*(x3 - 1)^2*(2*x2 + x3 - 1)^5 - 429*(x3 - 1)*(2*x2 + x3 - 1)^6)/(256*x3 - 256);
  (-(1170*x3 + 385*(2*x3 - 1)^3 + 840*(2*x3 - 1)^2 - 457))*(630*x2*(x3 - 1)^7 + 280*(x3 - 1)^8 + 945*(x3 - 1)^6*(2*x2 + x3 - 1)^2 - 3465*(x3 - 1)^5*(2*x2 + x3 - 1)^3 - 3465*(x3 - 1)^4*(2*x2 + x3 - 1)^4 + 9009*(x3 - 1)^3*(2*x2 + x3 - 1)^5 + 3003*(x3 - 1)^2*(2*x2 + x3 - 1)^6 - 6435*(x3 - 1)*(2*x2 + x3 - 1)^7)/(256*x3 - 256);
  1/512*(756*x3 + 231*(2*x3 - 1)^2 - 227)*(560*x2*(x3 - 1)^7 - 1540*(-x3 + 1)^6*(2*x2 + x3 - 1)^2 + 3080*(-x3 + 1)^5*(2*x2 + x3 - 1)^3 - 20020*(-x3 + 1)^2*(2*x2 + x3 - 1)^6 + 5720*(-x3 + 1)*(2*x2 + x3 - 1)^7 + 315*(x3 - 1)^8 + 10010*(x3 - 1)^4*(2*x2 + x3 - 1)^4 + 8008*(x3 - 1)^3*(2*x2 + x3 - 1)^5 + 12155*(2*x2 + x3 - 1)^8);
  1/256*(22*x3 - 1)*(1386*x2*(x3 - 1)^9 - 18018*(-x3 + 1)^6*((-2)*x2 - x3 + 1)^4 + 54054*(-x3 + 1)^5*((-2)*x2 - x3 + 1)^5 - 21879*(-x3 + 1)^2*((-2)*x2 - x3 + 1)^8 + 46189*(-x3 + 1)*((-2)*x2 - x3 + 1)^9 + 630*(x3 - 1)^10 + 2772*(x3 - 1)^8*((-2)*x2 - x3 + 1)^2 + 12012*(x3 - 1)^7*((-2)*x2 - x3 + 1)^3 + 36036*(x3 - 1)^4*((-2)*x2 - x3 + 1)^6 + 87516*(x3 - 1)^3*((-2)*x2 - x3 + 1)^7)/(x3 - 1);
  1/256*((-1260)*x2*(x3 - 1)^10 - 4095*(-x3 + 1)^9*((-2)*x2 - x3 + 1)^2 + 49140*(-x3 + 1)^6*((-2)*x2 - x3 + 1)^5 - 139230*(-x3 + 1)^5*((-2)*x2 - x3 + 1)^6 + 41990*(-x3 + 1)^2*((-2)*x2 - x3 + 1)^9 - 88179*(-x3 + 1)*((-2)*x2 - x3 + 1)^10 - 693*(x3 - 1)^11 - 10920*(x3 - 1)^8*((-2)*x2 - x3 + 1)^3 - 40950*(x3 - 1)^7*((-2)*x2 - x3 + 1)^4 - 79560*(x3 - 1)^4*((-2)*x2 - x3 + 1)^7 - 188955*(x3 - 1)^3*((-2)*x2 - x3 + 1)^8)/(x3 - 1);
  (-1)/128*(2*x1 + x2 + x3 - 1)*(2394*x3 - 124355*(2*x3 - 1)^9 - 203490*(2*x3 - 1)^8 + 58140*(2*x3 - 1)^7 + 217056*(2*x3 - 1)^6 + 36414*(2*x3 - 1)^5 - 64260*(2*x3 - 1)^4 - 17220*(2*x3 - 1)^3 + 5040*(2*x3 - 1)^2 - 1239);
  1/128*(5*x2 + x3 - 1)*(2*x1 + x2 + x3 - 1)*(2640*x3 + 159885*(2*x3 - 1)^8 + 348840*(2*x3 - 1)^7 + 135660*(2*x3 - 1)^6 - 162792*(2*x3 - 1)^5 - 117810*(2*x3 - 1)^4 + 4760*(2*x3 - 1)^3 + 14700*(2*x3 - 1)^2 - 1499);
  (-(36*x2*(x3 - 1)^2 + 17*(x3 - 1)^3 - 21*(x3 - 1)*(2*x2 + x3 - 1)^2))*(2*x1 + x2 + x3 - 1)*(182*x3 + 10659*(2*x3 - 1)^7 + 27132*(2*x3 - 1)^6 + 20349*(2*x3 - 1)^5 - 5355*(2*x3 - 1)^3 - 1428*(2*x3 - 1)^2 - 59)/(32*x3 - 32);
  1/128*(2*(x3 - 1)^3 - 21*(x3 - 1)*(2*x2 + x3 - 1)^2 + 21*(2*x2 + x3 - 1)^3)*(2*x1 + x2 + x3 - 1)*((-10812)*x3 + 74613*(2*x3 - 1)^6 + 203490*(2*x3 - 1)^5 + 188955*(2*x3 - 1)^4 + 58140*(2*x3 - 1)^3 - 6885*(2*x3 - 1)^2 + 5011);
  1/128*(2*x1 + x2 + x3 - 1)*(88*x2*(x3 - 1)^3 + 41*(x3 - 1)^4 - 18*(x3 - 1)^2*(2*x2 + x3 - 1)^2 - 180*(x3 - 1)*(2*x2 + x3 - 1)^3 + 165*(2*x2 + x3 - 1)^4)*(3150*x3 + 13167*(2*x3 - 1)^5 + 35910*(2*x3 - 1)^4 + 34770*(2*x3 - 1)^3 + 13680*(2*x3 - 1)^2 - 1669);
  1/512*(2*x1 + x2 + x3 - 1)*(11704*x3 + 7315*(2*x3 - 1)^4 + 18620*(2*x3 - 1)^3 + 16530*(2*x3 - 1)^2 - 5209)*((-90)*x2*(x3 - 1)^5 - 70*(-x3 + 1)^6 - 1485*(-x3 + 1)^2*((-2)*x2 - x3 + 1)^4 + 1287*(-x3 + 1)*((-2)*x2 - x3 + 1)^5 + 630*(x3 - 1)^4*((-2)*x2 - x3 + 1)^2 + 330*(x3 - 1)^3*((-2)*x2 - x3 + 1)^3)/(x3 - 1);
  (-(2*x1 + x2 + x3 - 1))*(1170*x3 + 385*(2*x3 - 1)^3 + 840*(2*x3 - 1)^2 - 457)*(780*x2*(x3 - 1)^6 + 365*(x3 - 1)^7 + 165*(x3 - 1)^5*(2*x2 + x3 - 1)^2 - 3740*(x3 - 1)^4*(2*x2 + x3 - 1)^3 + 2145*(x3 - 1)^3*(2*x2 + x3 - 1)^4 + 6006*(x3 - 1)^2*(2*x2 + x3 - 1)^5 - 5005*(x3 - 1)*(2*x2 + x3 - 1)^6)/(128*x3 - 128);
  1/128*(756*x3 + 231*(2*x3 - 1)^2 - 227)*(2*x1 + x2 + x3 - 1)*(154*x2*(x3 - 1)^7 - 924*(-x3 + 1)^6*((-2)*x2 - x3 + 1)^2 - 6006*(-x3 + 1)^2*((-2)*x2 - x3 + 1)^6 + 4862*(-x3 + 1)*((-2)*x2 - x3 + 1)^7 + 98*(x3 - 1)^8 + 5005*(x3 - 1)^4*((-2)*x2 - x3 + 1)^4 + 3003*(x3 - 1)^3*((-2)*x2 - x3 + 1)^5)/(x3 - 1);
  1/128*(22*x3 - 1)*(2*x1 + x2 + x3 - 1)*(1680*x2*(x3 - 1)^7 + 13832*(-x3 + 1)^5*(2*x2 + x3 - 1)^3 - 30940*(-x3 + 1)^2*(2*x2 + x3 - 1)^6 + 47736*(-x3 + 1)*(2*x2 + x3 - 1)^7 + 791*(x3 - 1)^8 + 1092*(x3 - 1)^6*(2*x2 + x3 - 1)^2 + 2730*(x3 - 1)^4*(2*x2 + x3 - 1)^4 + 50232*(x3 - 1)^3*(2*x2 + x3 - 1)^5 + 37791*(2*x2 + x3 - 1)^8);
  (-(2*x1 + x2 + x3 - 1))*(1638*x2*(x3 - 1)^9 + 966*(x3 - 1)^10 - 9828*(x3 - 1)^8*(2*x2 + x3 - 1)^2 - 5460*(x3 - 1)^7*(2*x2 + x3 - 1)^3 + 90090*(x3 - 1)^6*(2*x2 + x3 - 1)^4 - 27846*(x3 - 1)^5*(2*x2 + x3 - 1)^5 - 241332*(x3 - 1)^4*(2*x2 + x3 - 1)^6 + 151164*(x3 - 1)^3*(2*x2 + x3 - 1)^7 + 188955*(x3 - 1)^2*(2*x2 + x3 - 1)^8 - 146965*(x3 - 1)*(2*x2 + x3 - 1)^9)/(256*x3 - 256);
  1/256*(-(x2 + x3 - 1)^2 + 3*(2*x1 + x2 + x3 - 1)^2)*(2640*x3 + 159885*(2*x3 - 1)^8 + 348840*(2*x3 - 1)^7 + 135660*(2*x3 - 1)^6 - 162792*(2*x3 - 1)^5 - 117810*(2*x3 - 1)^4 + 4760*(2*x3 - 1)^3 + 14700*(2*x3 - 1)^2 - 1499);
  1/16*(-(x2 + x3 - 1)^2 + 3*(2*x1 + x2 + x3 - 1)^2)*(7*x2 + x3 - 1)*(182*x3 + 10659*(2*x3 - 1)^7 + 27132*(2*x3 - 1)^6 + 20349*(2*x3 - 1)^5 - 5355*(2*x3 - 1)^3 - 1428*(2*x3 - 1)^2 - 59);
  ((x2 + x3 - 1)^2 - 3*(2*x1 + x2 + x3 - 1)^2)*(20*x2*(x3 - 1)^2 + 8*(x3 - 1)^3 - 9*(x3 - 1)*(2*x2 + x3 - 1)^2)*((-10812)*x3 + 74613*(2*x3 - 1)^6 + 203490*(2*x3 - 1)^5 + 188955*(2*x3 - 1)^4 + 58140*(2*x3 - 1)^3 - 6885*(2*x3 - 1)^2 + 5011)/(128*x3 - 128);
  1/256*(-(x2 + x3 - 1)^2 + 3*(2*x1 + x2 + x3 - 1)^2)*(126*x2*(x3 - 1)^3 - 225*(-x3 + 1)^2*((-2)*x2 - x3 + 1)^2 + 165*(-x3 + 1)*((-2)*x2 - x3 + 1)^3 + 68*(x3 - 1)^4)*(3150*x3 + 13167*(2*x3 - 1)^5 + 35910*(2*x3 - 1)^4 + 34770*(2*x3 - 1)^3 + 13680*(2*x3 - 1)^2 - 1669)/(x3 - 1);
  1/512*(-(x2 + x3 - 1)^2 + 3*(2*x1 + x2 + x3 - 1)^2)*(11704*x3 + 7315*(2*x3 - 1)^4 + 18620*(2*x3 - 1)^3 + 16530*(2*x3 - 1)^2 - 5209)*(200*x2*(x3 - 1)^3 + 71*(x3 - 1)^4 + 330*(x3 - 1)^2*(2*x2 + x3 - 1)^2 - 1100*(x3 - 1)*(2*x2 + x3 - 1)^3 + 715*(2*x2 + x3 - 1)^4);
  ((x2 + x3 - 1)^2 - 3*(2*x1 + x2 + x3 - 1)^2)*(1170*x3 + 385*(2*x3 - 1)^3 + 840*(2*x3 - 1)^2 - 457)*(770*x2*(x3 - 1)^5 + 386*(x3 - 1)^6 - 990*(x3 - 1)^4*(2*x2 + x3 - 1)^2 - 1430*(x3 - 1)^3*(2*x2 + x3 - 1)^3 + 5005*(x3 - 1)^2*(2*x2 + x3 - 1)^4 - 3003*(x3 - 1)*(2*x2 + x3 - 1)^5)/(128*x3 - 128);
  1/128*((x2 + x3 - 1)^2 - 3*(2*x1 + x2 + x3 - 1)^2)*(756*x3 + 231*(2*x3 - 1)^2 - 227)*(96*x2*(x3 - 1)^5 + 23*(x3 - 1)^6 + 780*(x3 - 1)^4*(2*x2 + x3 - 1)^2 - 1820*(x3 - 1)^3*(2*x2 + x3 - 1)^3 - 1365*(x3 - 1)^2*(2*x2 + x3 - 1)^4 + 5460*(x3 - 1)*(2*x2 + x3 - 1)^5 - 3094*(2*x2 + x3 - 1)^6);
  1/64*(22*x3 - 1)*(-(x2 + x3 - 1)^2 + 3*(2*x1 + x2 + x3 - 1)^2)*(910*x2*(x3 - 1)^7 - 819*(-x3 + 1)^6*((-2)*x2 - x3 + 1)^2 + 4641*(-x3 + 1)^3*((-2)*x2 - x3 + 1)^5 - 23205*(-x3 + 1)^2*((-2)*x2 - x3 + 1)^6 + 12597*(-x3 + 1)*((-2)*x2 - x3 + 1)^7 + 448*(x3 - 1)^8 + 5005*(x3 - 1)^5*((-2)*x2 - x3 + 1)^3 + 11375*(x3 - 1)^4*((-2)*x2 - x3 + 1)^4)/(x3 - 1);
  1/256*(-(x2 + x3 - 1)^2 + 3*(2*x1 + x2 + x3 - 1)^2)*(112*x2*(x3 - 1)^7 - 119*(-x3 + 1)^8 + 17080*(-x3 + 1)^5*(2*x2 + x3 - 1)^3 - 55930*(-x3 + 1)^4*(2*x2 + x3 - 1)^4 + 193800*(-x3 + 1)*(2*x2 + x3 - 1)^7 + 9660*(x3 - 1)^6*(2*x2 + x3 - 1)^2 + 128520*(x3 - 1)^3*(2*x2 + x3 - 1)^5 + 27132*(x3 - 1)^2*(2*x2 + x3 - 1)^6 + 101745*(2*x2 + x3 - 1)^8);
  (-(6*x1*(x2 + x3 - 1)^3 + 3*(x2 + x3 - 1)^4 - 5*(x2 + x3 - 1)*(2*x1 + x2 + x3 - 1)^3))*(182*x3 + 10659*(2*x3 - 1)^7 + 27132*(2*x3 - 1)^6 + 20349*(2*x3 - 1)^5 - 5355*(2*x3 - 1)^3 - 1428*(2*x3 - 1)^2 - 59)/(16*x2 + 16*x3 - 16);
  1/128*(9*x2 + x3 - 1)*(6*x1*(x2 + x3 - 1)^3 + 5*(-x2 - x3 + 1)*(2*x1 + x2 + x3 - 1)^3 + 3*(x2 + x3 - 1)^4)*((-10812)*x3 + 74613*(2*x3 - 1)^6 + 203490*(2*x3 - 1)^5 + 188955*(2*x3 - 1)^4 + 58140*(2*x3 - 1)^3 - 6885*(2*x3 - 1)^2 + 5011)/(-x2 - x3 + 1);
  1/128*(6*x1*(x2 + x3 - 1)^3 + 5*(-x2 - x3 + 1)*(2*x1 + x2 + x3 - 1)^3 + 3*(x2 + x3 - 1)^4)*(140*x2*(x3 - 1)^2 + 55*(-x3 + 1)*((-2)*x2 - x3 + 1)^2 + 51*(x3 - 1)^3)*(3150*x3 + 13167*(2*x3 - 1)^5 + 35910*(2*x3 - 1)^4 + 34770*(2*x3 - 1)^3 + 13680*(2*x3 - 1)^2 - 1669)/((x3 - 1)*(x2 + x3 - 1));
  (-(6*x1*(x2 + x3 - 1)^3 + 3*(x2 + x3 - 1)^4 - 5*(x2 + x3 - 1)*(2*x1 + x2 + x3 - 1)^3))*(198*x2*(x3 - 1)^2 + 92*(x3 - 1)^3 - 231*(x3 - 1)*(2*x2 + x3 - 1)^2 + 143*(2*x2 + x3 - 1)^3)*(11704*x3 + 7315*(2*x3 - 1)^4 + 18620*(2*x3 - 1)^3 + 16530*(2*x3 - 1)^2 - 5209)/(128*x2 + 128*x3 - 128);
  (6*x1*(x2 + x3 - 1)^3 + 3*(x2 + x3 - 1)^4 - 5*(x2 + x3 - 1)*(2*x1 + x2 + x3 - 1)^3)*(1170*x3 + 385*(2*x3 - 1)^3 + 840*(2*x3 - 1)^2 - 457)*(168*x2*(x3 - 1)^3 + 127*(x3 - 1)^4 - 1326*(x3 - 1)^2*(2*x2 + x3 - 1)^2 + 2548*(x3 - 1)*(2*x2 + x3 - 1)^3 - 1365*(2*x2 + x3 - 1)^4)/(64*x2 + 64*x3 - 64);
  1/64*(756*x3 + 231*(2*x3 - 1)^2 - 227)*(6*x1*(x2 + x3 - 1)^3 + 5*(-x2 - x3 + 1)*(2*x1 + x2 + x3 - 1)^3 + 3*(x2 + x3 - 1)^4)*(390*x2*(x3 - 1)^5 + 1820*(-x3 + 1)^3*(2*x2 + x3 - 1)^3 + 1547*(-x3 + 1)*(2*x2 + x3 - 1)^5 + 174*(x3 - 1)^6 + 3185*(x3 - 1)^2*(2*x2 + x3 - 1)^4)/((x3 - 1)*(x2 + x3 - 1));
  (-(22*x3 - 1))*(6*x1*(x2 + x3 - 1)^3 + 3*(x2 + x3 - 1)^4 - 5*(x2 + x3 - 1)*(2*x1 + x2 + x3 - 1)^3)*(588*x2*(x3 - 1)^5 + 317*(x3 - 1)^6 - 1995*(x3 - 1)^4*(2*x2 + x3 - 1)^2 + 980*(x3 - 1)^3*(2*x2 + x3 - 1)^3 + 8925*(x3 - 1)^2*(2*x2 + x3 - 1)^4 - 14994*(x3 - 1)*(2*x2 + x3 - 1)^5 + 6783*(2*x2 + x3 - 1)^6)/(32*x2 + 32*x3 - 32);
  (-1)/32*(6*x1*(x2 + x3 - 1)^3 + 3*(x2 + x3 - 1)^4 - 5*(x2 + x3 - 1)*(2*x1 + x2 + x3 - 1)^3)*(630*x2*(x3 - 1)^7 + 272*(x3 - 1)^8 + 1155*(x3 - 1)^6*(2*x2 + x3 - 1)^2 - 7735*(x3 - 1)^5*(2*x2 + x3 - 1)^3 + 5355*(x3 - 1)^4*(2*x2 + x3 - 1)^4 + 20349*(x3 - 1)^3*(2*x2 + x3 - 1)^5 - 33915*(x3 - 1)^2*(2*x2 + x3 - 1)^6 + 14535*(x3 - 1)*(2*x2 + x3 - 1)^7)/((x3 - 1)*(x2 + x3 - 1));
  1/512*(3*(x2 + x3 - 1)^4 - 30*(x2 + x3 - 1)^2*(2*x1 + x2 + x3 - 1)^2 + 35*(2*x1 + x2 + x3 - 1)^4)*((-10812)*x3 + 74613*(2*x3 - 1)^6 + 203490*(2*x3 - 1)^5 + 188955*(2*x3 - 1)^4 + 58140*(2*x3 - 1)^3 - 6885*(2*x3 - 1)^2 + 5011);
  1/128*(11*x2 + x3 - 1)*(3*(x2 + x3 - 1)^4 - 30*(x2 + x3 - 1)^2*(2*x1 + x2 + x3 - 1)^2 + 35*(2*x1 + x2 + x3 - 1)^4)*(3150*x3 + 13167*(2*x3 - 1)^5 + 35910*(2*x3 - 1)^4 + 34770*(2*x3 - 1)^3 + 13680*(2*x3 - 1)^2 - 1669);
  (-(108*x2*(x3 - 1)^2 + 37*(x3 - 1)^3 - 39*(x3 - 1)*(2*x2 + x3 - 1)^2))*(3*(x2 + x3 - 1)^4 - 30*(x2 + x3 - 1)^2*(2*x1 + x2 + x3 - 1)^2 + 35*(2*x1 + x2 + x3 - 1)^4)*(11704*x3 + 7315*(2*x3 - 1)^4 + 18620*(2*x3 - 1)^3 + 16530*(2*x3 - 1)^2 - 5209)/(256*x3 - 256);
  1/128*(3*(x2 + x3 - 1)^4 - 30*(x2 + x3 - 1)^2*(2*x1 + x2 + x3 - 1)^2 + 35*(2*x1 + x2 + x3 - 1)^4)*(1170*x3 + 385*(2*x3 - 1)^3 + 840*(2*x3 - 1)^2 - 457)*(858*x2*(x3 - 1)^3 - 819*(-x3 + 1)^2*((-2)*x2 - x3 + 1)^2 + 455*(-x3 + 1)*((-2)*x2 - x3 + 1)^3 + 372*(x3 - 1)^4)/(x3 - 1);
  1/128*(756*x3 + 231*(2*x3 - 1)^2 - 227)*(3*(x2 + x3 - 1)^4 - 30*(x2 + x3 - 1)^2*(2*x1 + x2 + x3 - 1)^2 + 35*(2*x1 + x2 + x3 - 1)^4)*((-336)*x2*(x3 - 1)^3 - 171*(x3 - 1)^4 + 840*(x3 - 1)^2*(2*x2 + x3 - 1)^2 - 1260*(x3 - 1)*(2*x2 + x3 - 1)^3 + 595*(2*x2 + x3 - 1)^4);
  (-(22*x3 - 1))*(3*(x2 + x3 - 1)^4 - 30*(x2 + x3 - 1)^2*(2*x1 + x2 + x3 - 1)^2 + 35*(2*x1 + x2 + x3 - 1)^4)*(330*x2*(x3 - 1)^5 + 114*(x3 - 1)^6 + 1170*(x3 - 1)^4*(2*x2 + x3 - 1)^2 - 5270*(x3 - 1)^3*(2*x2 + x3 - 1)^3 + 6885*(x3 - 1)^2*(2*x2 + x3 - 1)^4 - 2907*(x3 - 1)*(2*x2 + x3 - 1)^5)/(64*x3 - 64);
  1/64*(3*(x2 + x3 - 1)^4 - 30*(x2 + x3 - 1)^2*(2*x1 + x2 + x3 - 1)^2 + 35*(2*x1 + x2 + x3 - 1)^4)*(972*x2*(x3 - 1)^5 + 467*(x3 - 1)^6 - 1275*(x3 - 1)^4*(2*x2 + x3 - 1)^2 - 3060*(x3 - 1)^3*(2*x2 + x3 - 1)^3 + 14535*(x3 - 1)^2*(2*x2 + x3 - 1)^4 - 17442*(x3 - 1)*(2*x2 + x3 - 1)^5 + 6783*(2*x2 + x3 - 1)^6);
  1/128*(30*x1*(x2 + x3 - 1)^5 + 63*(-x2 - x3 + 1)*((-2)*x1 - x2 - x3 + 1)^5 + 15*(x2 + x3 - 1)^6 + 70*(x2 + x3 - 1)^3*((-2)*x1 - x2 - x3 + 1)^3)*(3150*x3 + 13167*(2*x3 - 1)^5 + 35910*(2*x3 - 1)^4 + 34770*(2*x3 - 1)^3 + 13680*(2*x3 - 1)^2 - 1669)/(x2 + x3 - 1);
  1/128*(13*x2 + x3 - 1)*(30*x1*(x2 + x3 - 1)^5 + 63*(-x2 - x3 + 1)*((-2)*x1 - x2 - x3 + 1)^5 + 15*(x2 + x3 - 1)^6 + 70*(x2 + x3 - 1)^3*((-2)*x1 - x2 - x3 + 1)^3)*(11704*x3 + 7315*(2*x3 - 1)^4 + 18620*(2*x3 - 1)^3 + 16530*(2*x3 - 1)^2 - 5209)/(x2 + x3 - 1);
  (-1)/64*(308*x2*(x3 - 1)^2 + 101*(x3 - 1)^3 - 105*(x3 - 1)*(2*x2 + x3 - 1)^2)*(1170*x3 + 385*(2*x3 - 1)^3 + 840*(2*x3 - 1)^2 - 457)*(30*x1*(x2 + x3 - 1)^5 + 15*(x2 + x3 - 1)^6 - 70*(x2 + x3 - 1)^3*(2*x1 + x2 + x3 - 1)^3 + 63*(x2 + x3 - 1)*(2*x1 + x2 + x3 - 1)^5)/((x3 - 1)*(x2 + x3 - 1));
  1/32*(756*x3 + 231*(2*x3 - 1)^2 - 227)*(30*x1*(x2 + x3 - 1)^5 + 63*(-x2 - x3 + 1)*((-2)*x1 - x2 - x3 + 1)^5 + 15*(x2 + x3 - 1)^6 + 70*(x2 + x3 - 1)^3*((-2)*x1 - x2 - x3 + 1)^3)*(195*x2*(x3 - 1)^2 + 81*(x3 - 1)^3 - 165*(x3 - 1)*((-2)*x2 - x3 + 1)^2 - 85*((-2)*x2 - x3 + 1)^3)/(x2 + x3 - 1);
  1/32*(22*x3 - 1)*(30*x1*(x2 + x3 - 1)^5 + 63*(-x2 - x3 + 1)*((-2)*x1 - x2 - x3 + 1)^5 + 15*(x2 + x3 - 1)^6 + 70*(x2 + x3 - 1)^3*((-2)*x1 - x2 - x3 + 1)^3)*((-968)*x2*(x3 - 1)^3 - 455*(x3 - 1)^4 + 1734*(x3 - 1)^2*(2*x2 + x3 - 1)^2 - 2244*(x3 - 1)*(2*x2 + x3 - 1)^3 + 969*(2*x2 + x3 - 1)^4)/(x2 + x3 - 1);
  1/256*(30*x1*(x2 + x3 - 1)^5 + 15*(x2 + x3 - 1)^6 - 70*(x2 + x3 - 1)^3*(2*x1 + x2 + x3 - 1)^3 + 63*(x2 + x3 - 1)*(2*x1 + x2 + x3 - 1)^5)*(2210*x2*(x3 - 1)^5 + 1358*(x3 - 1)^6 - 16830*(x3 - 1)^4*(2*x2 + x3 - 1)^2 + 48450*(x3 - 1)^3*(2*x2 + x3 - 1)^3 - 53295*(x3 - 1)^2*(2*x2 + x3 - 1)^4 + 20349*(x3 - 1)*(2*x2 + x3 - 1)^5)/((x3 - 1)*(x2 + x3 - 1));
  1/256*((-5)*(x2 + x3 - 1)^6 + 105*(x2 + x3 - 1)^4*(2*x1 + x2 + x3 - 1)^2 - 315*(x2 + x3 - 1)^2*(2*x1 + x2 + x3 - 1)^4 + 231*(2*x1 + x2 + x3 - 1)^6)*(11704*x3 + 7315*(2*x3 - 1)^4 + 18620*(2*x3 - 1)^3 + 16530*(2*x3 - 1)^2 - 5209);
  1/32*(15*x2 + x3 - 1)*(1170*x3 + 385*(2*x3 - 1)^3 + 840*(2*x3 - 1)^2 - 457)*((-5)*(x2 + x3 - 1)^6 + 105*(x2 + x3 - 1)^4*(2*x1 + x2 + x3 - 1)^2 - 315*(x2 + x3 - 1)^2*(2*x1 + x2 + x3 - 1)^4 + 231*(2*x1 + x2 + x3 - 1)^6);
  (756*x3 + 231*(2*x3 - 1)^2 - 227)*(104*x2*(x3 - 1)^2 + 33*(x3 - 1)^3 - 34*(x3 - 1)*(2*x2 + x3 - 1)^2)*(5*(x2 + x3 - 1)^6 - 105*(x2 + x3 - 1)^4*(2*x1 + x2 + x3 - 1)^2 + 315*(x2 + x3 - 1)^2*(2*x1 + x2 + x3 - 1)^4 - 231*(2*x1 + x2 + x3 - 1)^6)/(64*x3 - 64);
  1/128*(22*x3 - 1)*(2550*x2*(x3 - 1)^3 - 1989*(-x3 + 1)^2*((-2)*x2 - x3 + 1)^2 + 969*(-x3 + 1)*((-2)*x2 - x3 + 1)^3 + 1028*(x3 - 1)^4)*((-5)*(x2 + x3 - 1)^6 + 105*(x2 + x3 - 1)^4*(2*x1 + x2 + x3 - 1)^2 - 315*(x2 + x3 - 1)^2*(2*x1 + x2 + x3 - 1)^4 + 231*(2*x1 + x2 + x3 - 1)^6)/(x3 - 1);
  1/256*((-5)*(x2 + x3 - 1)^6 + 105*(x2 + x3 - 1)^4*(2*x1 + x2 + x3 - 1)^2 - 315*(x2 + x3 - 1)^2*(2*x1 + x2 + x3 - 1)^4 + 231*(2*x1 + x2 + x3 - 1)^6)*((-8424)*x2*(x3 - 1)^3 - 3803*(x3 - 1)^4 + 12654*(x3 - 1)^2*(2*x2 + x3 - 1)^2 - 14820*(x3 - 1)*(2*x2 + x3 - 1)^3 + 5985*(2*x2 + x3 - 1)^4);
  (-(1170*x3 + 385*(2*x3 - 1)^3 + 840*(2*x3 - 1)^2 - 457))*(70*x1*(x2 + x3 - 1)^7 + 35*(x2 + x3 - 1)^8 - 315*(x2 + x3 - 1)^5*(2*x1 + x2 + x3 - 1)^3 + 693*(x2 + x3 - 1)^3*(2*x1 + x2 + x3 - 1)^5 - 429*(x2 + x3 - 1)*(2*x1 + x2 + x3 - 1)^7)/(32*x2 + 32*x3 - 32);
  (-(17*x2 + x3 - 1))*(756*x3 + 231*(2*x3 - 1)^2 - 227)*(70*x1*(x2 + x3 - 1)^7 + 35*(x2 + x3 - 1)^8 - 315*(x2 + x3 - 1)^5*(2*x1 + x2 + x3 - 1)^3 + 693*(x2 + x3 - 1)^3*(2*x1 + x2 + x3 - 1)^5 - 429*(x2 + x3 - 1)*(2*x1 + x2 + x3 - 1)^7)/(64*x2 + 64*x3 - 64);
  1/64*(22*x3 - 1)*(540*x2*(x3 - 1)^2 + 171*(-x3 + 1)*((-2)*x2 - x3 + 1)^2 + 167*(x3 - 1)^3)*(70*x1*(x2 + x3 - 1)^7 + 315*(-x2 - x3 + 1)^5*(2*x1 + x2 + x3 - 1)^3 + 429*(-x2 - x3 + 1)*(2*x1 + x2 + x3 - 1)^7 + 35*(x2 + x3 - 1)^8 + 693*(x2 + x3 - 1)^3*(2*x1 + x2 + x3 - 1)^5)/((x3 - 1)*(x2 + x3 - 1));
  (-(1938*x2*(x3 - 1)^2 + 764*(x3 - 1)^3 - 1425*(x3 - 1)*(2*x2 + x3 - 1)^2 + 665*(2*x2 + x3 - 1)^3))*(70*x1*(x2 + x3 - 1)^7 + 35*(x2 + x3 - 1)^8 - 315*(x2 + x3 - 1)^5*(2*x1 + x2 + x3 - 1)^3 + 693*(x2 + x3 - 1)^3*(2*x1 + x2 + x3 - 1)^5 - 429*(x2 + x3 - 1)*(2*x1 + x2 + x3 - 1)^7)/(64*x2 + 64*x3 - 64);
  1/512*(756*x3 + 231*(2*x3 - 1)^2 - 227)*(35*(x2 + x3 - 1)^8 - 1260*(x2 + x3 - 1)^6*(2*x1 + x2 + x3 - 1)^2 + 6930*(x2 + x3 - 1)^4*(2*x1 + x2 + x3 - 1)^4 - 12012*(x2 + x3 - 1)^2*(2*x1 + x2 + x3 - 1)^6 + 6435*(2*x1 + x2 + x3 - 1)^8);
  1/128*(22*x3 - 1)*(19*x2 + x3 - 1)*(35*(x2 + x3 - 1)^8 - 1260*(x2 + x3 - 1)^6*(2*x1 + x2 + x3 - 1)^2 + 6930*(x2 + x3 - 1)^4*(2*x1 + x2 + x3 - 1)^4 - 12012*(x2 + x3 - 1)^2*(2*x1 + x2 + x3 - 1)^6 + 6435*(2*x1 + x2 + x3 - 1)^8);
  (-(340*x2*(x3 - 1)^2 + 103*(x3 - 1)^3 - 105*(x3 - 1)*(2*x2 + x3 - 1)^2))*(35*(x2 + x3 - 1)^8 - 1260*(x2 + x3 - 1)^6*(2*x1 + x2 + x3 - 1)^2 + 6930*(x2 + x3 - 1)^4*(2*x1 + x2 + x3 - 1)^4 - 12012*(x2 + x3 - 1)^2*(2*x1 + x2 + x3 - 1)^6 + 6435*(2*x1 + x2 + x3 - 1)^8)/(256*x3 - 256);
  1/128*(22*x3 - 1)*(630*x1*(x2 + x3 - 1)^9 + 18018*(-x2 - x3 + 1)^5*((-2)*x1 - x2 - x3 + 1)^5 + 12155*(-x2 - x3 + 1)*((-2)*x1 - x2 - x3 + 1)^9 + 315*(x2 + x3 - 1)^10 + 4620*(x2 + x3 - 1)^7*((-2)*x1 - x2 - x3 + 1)^3 + 25740*(x2 + x3 - 1)^3*((-2)*x1 - x2 - x3 + 1)^7)/(x2 + x3 - 1);
  1/128*(21*x2 + x3 - 1)*(630*x1*(x2 + x3 - 1)^9 + 18018*(-x2 - x3 + 1)^5*((-2)*x1 - x2 - x3 + 1)^5 + 12155*(-x2 - x3 + 1)*((-2)*x1 - x2 - x3 + 1)^9 + 315*(x2 + x3 - 1)^10 + 4620*(x2 + x3 - 1)^7*((-2)*x1 - x2 - x3 + 1)^3 + 25740*(x2 + x3 - 1)^3*((-2)*x1 - x2 - x3 + 1)^7)/(x2 + x3 - 1);
  (-63)/256*(x2 + x3 - 1)^10 + 3465/256*(x2 + x3 - 1)^8*(2*x1 + x2 + x3 - 1)^2 - 15015/128*(x2 + x3 - 1)^6*(2*x1 + x2 + x3 - 1)^4 + 45045/128*(x2 + x3 - 1)^4*(2*x1 + x2 + x3 - 1)^6 - 109395/256*(x2 + x3 - 1)^2*(2*x1 + x2 + x3 - 1)^8 + 46189/256*(2*x1 + x2 + x3 - 1)^10].

(** src/dg/generated/basis_tet_der_xi1.inc:25-882 *)
Definition tet_d1 : list ex := [
  0;
  0;
  0;
  2;
  0;
  0;
  0;
  12*x3 - 2;
  10*x2 + 2*x3 - 2;
  12*x1 + 6*x2 + 6*x3 - 6;
  0;
  0;
  0;
  0;
  28*x3 + 14*(2*x3 - 1)^2 - 12;
  2*(8*x3 - 1)*(5*x2 + x3 - 1);
  (-2)*(36*x2*(x3 - 1)^2 + 17*(x3 - 1)^3 - 21*(x3 - 1)*(2*x2 + x3 - 1)^2)/(4*x3 - 4);
  1/2*(8*x3 - 1)*(24*x1 + 12*x2 + 12*x3 - 12);
  1/2*(7*x2 + x3 - 1)*(24*x1 + 12*x2 + 12*x3 - 12);
  (-(6*(x2 + x3 - 1)^3 - 30*(x2 + x3 - 1)*(2*x1 + x2 + x3 - 1)^2))/(2*x2 + 2*x3 - 2);
  0;
  0;
  0;
  0;
  0;
  12*x3 + 30*(2*x3 - 1)^3 + 36*(2*x3 - 1)^2 - 8;
  1/2*(5*x2 + x3 - 1)*(108*x3 + 45*(2*x3 - 1)^2 - 41);
  (-2)*(10*x3 - 1)*(36*x2*(x3 - 1)^2 + 17*(x3 - 1)^3 - 21*(x3 - 1)*(2*x2 + x3 - 1)^2)/(4*x3 - 4);
  2*(x3 - 1)^3 - 21*(x3 - 1)*(2*x2 + x3 - 1)^2 + 21*(2*x2 + x3 - 1)^3;
  1/8*(108*x3 + 45*(2*x3 - 1)^2 - 41)*(24*x1 + 12*x2 + 12*x3 - 12);
  1/2*(10*x3 - 1)*(7*x2 + x3 - 1)*(24*x1 + 12*x2 + 12*x3 - 12);
  (20*x2*(x3 - 1)^2 + 8*(x3 - 1)^3 - 9*(x3 - 1)*(2*x2 + x3 - 1)^2)*((-24)*x1 - 12*x2 - 12*x3 + 12)/(2*x3 - 2);
  (-(10*x3 - 1))*(6*(x2 + x3 - 1)^3 - 30*(x2 + x3 - 1)*(2*x1 + x2 + x3 - 1)^2)/(2*x2 + 2*x3 - 2);
  1/2*(30*(-x2 - x3 + 1)*(2*x1 + x2 + x3 - 1)^2 + 6*(x2 + x3 - 1)^3)*(9*x2 + x3 - 1)/(-x2 - x3 + 1);
  (-15)/4*(x2 + x3 - 1)^2*(8*x1 + 4*x2 + 4*x3 - 4) + 35*(2*x1 + x2 + x3 - 1)^3;
  0;
  0;
  0;
  0;
  0;
  0;
  (-27)*x3 + 495/8*(2*x3 - 1)^4 + 165/2*(2*x3 - 1)^3 + 45/4*(2*x3 - 1)^2 + 91/8;
  1/2*(5*x2 + x3 - 1)*(120*x3 + 110*(2*x3 - 1)^3 + 165*(2*x3 - 1)^2 - 59);
  (-2)*(88*x3 + 33*(2*x3 - 1)^2 - 31)*(36*x2*(x3 - 1)^2 + 17*(x3 - 1)^3 - 21*(x3 - 1)*(2*x2 + x3 - 1)^2)/(8*x3 - 8);
  (12*x3 - 1)*(2*(x3 - 1)^3 - 21*(x3 - 1)*(2*x2 + x3 - 1)^2 + 21*(2*x2 + x3 - 1)^3);
  22*x2*(x3 - 1)^3 + 41/4*(x3 - 1)^4 - 9/2*(x3 - 1)^2*(2*x2 + x3 - 1)^2 - 45*(x3 - 1)*(2*x2 + x3 - 1)^3 + 165/4*(2*x2 + x3 - 1)^4;
  1/8*(24*x1 + 12*x2 + 12*x3 - 12)*(120*x3 + 110*(2*x3 - 1)^3 + 165*(2*x3 - 1)^2 - 59);
  1/4*(7*x2 + x3 - 1)*(88*x3 + 33*(2*x3 - 1)^2 - 31)*(24*x1 + 12*x2 + 12*x3 - 12);
  (12*x3 - 1)*(20*x2*(x3 - 1)^2 + 8*(x3 - 1)^3 - 9*(x3 - 1)*(2*x2 + x3 - 1)^2)*((-24)*x1 - 12*x2 - 12*x3 + 12)/(2*x3 - 2);
  1/16*(24*x1 + 12*x2 + 12*x3 - 12)*(126*x2*(x3 - 1)^3 - 225*(-x3 + 1)^2*((-2)*x2 - x3 + 1)^2 + 165*(-x3 + 1)*((-2)*x2 - x3 + 1)^3 + 68*(x3 - 1)^4)/(x3 - 1);
  (-(6*(x2 + x3 - 1)^3 - 30*(x2 + x3 - 1)*(2*x1 + x2 + x3 - 1)^2))*(88*x3 + 33*(2*x3 - 1)^2 - 31)/(4*x2 + 4*x3 - 4);
  1/2*(12*x3 - 1)*(30*(-x2 - x3 + 1)*(2*x1 + x2 + x3 - 1)^2 + 6*(x2 + x3 - 1)^3)*(9*x2 + x3 - 1)/(-x2 - x3 + 1);
  1/8*(30*(-x2 - x3 + 1)*(2*x1 + x2 + x3 - 1)^2 + 6*(x2 + x3 - 1)^3)*(140*x2*(x3 - 1)^2 + 55*(-x3 + 1)*((-2)*x2 - x3 + 1)^2 + 51*(x3 - 1)^3)/((x3 - 1)*(x2 + x3 - 1));
  1/8*(12*x3 - 1)*((-30)*(x2 + x3 - 1)^2*(8*x1 + 4*x2 + 4*x3 - 4) + 280*(2*x1 + x2 + x3 - 1)^3);
  1/8*((-30)*(x2 + x3 - 1)^2*(8*x1 + 4*x2 + 4*x3 - 4) + 280*(2*x1 + x2 + x3 - 1)^3)*(11*x2 + x3 - 1);
  1/8*((-630)*(-x2 - x3 + 1)*((-2)*x1 - x2 - x3 + 1)^4 + 30*(x2 + x3 - 1)^5 - 420*(x2 + x3 - 1)^3*((-2)*x1 - x2 - x3 + 1)^2)/(x2 + x3 - 1);
  0;
  0;
  0;
  0;
  0;
  0;
  0;
  (-95)/4*x3 + 1001/8*(2*x3 - 1)^5 + 715/4*(2*x3 - 1)^4 + 55/4*(2*x3 - 1)^3 - 55*(2*x3 - 1)^2 + 105/8;
  1/8*(5*x2 + x3 - 1)*((-88)*x3 + 1001*(2*x3 - 1)^4 + 1716*(2*x3 - 1)^3 + 726*(2*x3 - 1)^2 + 5);
  (-2)*(36*x2*(x3 - 1)^2 + 17*(x3 - 1)^3 - 21*(x3 - 1)*(2*x2 + x3 - 1)^2)*(150*x3 + 91*(2*x3 - 1)^3 + 156*(2*x3 - 1)^2 - 67)/(8*x3 - 8);
  1/4*(260*x3 + 91*(2*x3 - 1)^2 - 87)*(2*(x3 - 1)^3 - 21*(x3 - 1)*(2*x2 + x3 - 1)^2 + 21*(2*x2 + x3 - 1)^3);
  1/4*(14*x3 - 1)*(88*x2*(x3 - 1)^3 + 41*(x3 - 1)^4 - 18*(x3 - 1)^2*(2*x2 + x3 - 1)^2 - 180*(x3 - 1)*(2*x2 + x3 - 1)^3 + 165*(2*x2 + x3 - 1)^4);
  1/16*((-90)*x2*(x3 - 1)^5 - 70*(-x3 + 1)^6 - 1485*(-x3 + 1)^2*((-2)*x2 - x3 + 1)^4 + 1287*(-x3 + 1)*((-2)*x2 - x3 + 1)^5 + 630*(x3 - 1)^4*((-2)*x2 - x3 + 1)^2 + 330*(x3 - 1)^3*((-2)*x2 - x3 + 1)^3)/(x3 - 1);
  1/32*(24*x1 + 12*x2 + 12*x3 - 12)*((-88)*x3 + 1001*(2*x3 - 1)^4 + 1716*(2*x3 - 1)^3 + 726*(2*x3 - 1)^2 + 5);
  1/4*(7*x2 + x3 - 1)*(24*x1 + 12*x2 + 12*x3 - 12)*(150*x3 + 91*(2*x3 - 1)^3 + 156*(2*x3 - 1)^2 - 67);
  (260*x3 + 91*(2*x3 - 1)^2 - 87)*(20*x2*(x3 - 1)^2 + 8*(x3 - 1)^3 - 9*(x3 - 1)*(2*x2 + x3 - 1)^2)*((-24)*x1 - 12*x2 - 12*x3 + 12)/(8*x3 - 8);
  1/16*(14*x3 - 1)*(24*x1 + 12*x2 + 12*x3 - 12)*(126*x2*(x3 - 1)^3 - 225*(-x3 + 1)^2*((-2)*x2 - x3 + 1)^2 + 165*(-x3 + 1)*((-2)*x2 - x3 + 1)^3 + 68*(x3 - 1)^4)/(x3 - 1);
  1/32*(24*x1 + 12*x2 + 12*x3 - 12)*(200*x2*(x3 - 1)^3 + 71*(x3 - 1)^4 + 330*(x3 - 1)^2*(2*x2 + x3 - 1)^2 - 1100*(x3 - 1)*(2*x2 + x3 - 1)^3 + 715*(2*x2 + x3 - 1)^4);
  (-(6*(x2 + x3 - 1)^3 - 30*(x2 + x3 - 1)*(2*x1 + x2 + x3 - 1)^2))*(150*x3 + 91*(2*x3 - 1)^3 + 156*(2*x3 - 1)^2 - 67)/(4*x2 + 4*x3 - 4);
  1/8*(30*(-x2 - x3 + 1)*(2*x1 + x2 + x3 - 1)^2 + 6*(x2 + x3 - 1)^3)*(9*x2 + x3 - 1)*(260*x3 + 91*(2*x3 - 1)^2 - 87)/(-x2 - x3 + 1);
  1/8*(14*x3 - 1)*(30*(-x2 - x3 + 1)*(2*x1 + x2 + x3 - 1)^2 + 6*(x2 + x3 - 1)^3)*(140*x2*(x3 - 1)^2 + 55*(-x3 + 1)*((-2)*x2 - x3 + 1)^2 + 51*(x3 - 1)^3)/((x3 - 1)*(x2 + x3 - 1));
  (-(6*(x2 + x3 - 1)^3 - 30*(x2 + x3 - 1)*(2*x1 + x2 + x3 - 1)^2))*(198*x2*(x3 - 1)^2 + 92*(x3 - 1)^3 - 231*(x3 - 1)*(2*x2 + x3 - 1)^2 + 143*(2*x2 + x3 - 1)^3)/(8*x2 + 8*x3 - 8);
  1/32*((-30)*(x2 + x3 - 1)^2*(8*x1 + 4*x2 + 4*x3 - 4) + 280*(2*x1 + x2 + x3 - 1)^3)*(260*x3 + 91*(2*x3 - 1)^2 - 87);
  1/8*(14*x3 - 1)*((-30)*(x2 + x3 - 1)^2*(8*x1 + 4*x2 + 4*x3 - 4) + 280*(2*x1 + x2 + x3 - 1)^3)*(11*x2 + x3 - 1);
  (-((-30)*(x2 + x3 - 1)^2*(8*x1 + 4*x2 + 4*x3 - 4) + 280*(2*x1 + x2 + x3 - 1)^3))*(108*x2*(x3 - 1)^2 + 37*(x3 - 1)^3 - 39*(x3 - 1)*(2*x2 + x3 - 1)^2)/(16*x3 - 16);
  1/8*(14*x3 - 1)*((-630)*(-x2 - x3 + 1)*((-2)*x1 - x2 - x3 + 1)^4 + 30*(x2 + x3 - 1)^5 - 420*(x2 + x3 - 1)^3*((-2)*x1 - x2 - x3 + 1)^2)/(x2 + x3 - 1);
  1/8*(13*x2 + x3 - 1)*((-630)*(-x2 - x3 + 1)*((-2)*x1 - x2 - x3 + 1)^4 + 30*(x2 + x3 - 1)^5 - 420*(x2 + x3 - 1)^3*((-2)*x1 - x2 - x3 + 1)^2)/(x2 + x3 - 1);
  105/16*(x2 + x3 - 1)^4*(8*x1 + 4*x2 + 4*x3 - 4) - 315/2*(x2 + x3 - 1)^2*(2*x1 + x2 + x3 - 1)^3 + 693/4*(2*x1 + x2 + x3 - 1)^5;
  0;
  0;
  0;
  0;
  0;
  0;
  0;
  0;
  99/4*x3 + 1001/4*(2*x3 - 1)^6 + 3003/8*(2*x3 - 1)^5 - 715/4*(2*x3 - 1)^3 - 165/4*(2*x3 - 1)^2 - 83/8;
  1/8*(5*x2 + x3 - 1)*((-600)*x3 + 2184*(2*x3 - 1)^5 + 4095*(2*x3 - 1)^4 + 1820*(2*x3 - 1)^3 - 390*(2*x3 - 1)^2 + 283);
  (-2)*(36*x2*(x3 - 1)^2 + 17*(x3 - 1)^3 - 21*(x3 - 1)*(2*x2 + x3 - 1)^2)*(156*x3 + 455*(2*x3 - 1)^4 + 910*(2*x3 - 1)^3 + 546*(2*x3 - 1)^2 - 87)/(16*x3 - 16);
  1/4*(2*(x3 - 1)^3 - 21*(x3 - 1)*(2*x2 + x3 - 1)^2 + 21*(2*x2 + x3 - 1)^3)*(588*x3 + 280*(2*x3 - 1)^3 + 525*(2*x3 - 1)^2 - 249);
  1/4*(90*x3 + 30*(2*x3 - 1)^2 - 29)*(88*x2*(x3 - 1)^3 + 41*(x3 - 1)^4 - 18*(x3 - 1)^2*(2*x2 + x3 - 1)^2 - 180*(x3 - 1)*(2*x2 + x3 - 1)^3 + 165*(2*x2 + x3 - 1)^4);
  1/16*(16*x3 - 1)*((-90)*x2*(x3 - 1)^5 - 70*(-x3 + 1)^6 - 1485*(-x3 + 1)^2*((-2)*x2 - x3 + 1)^4 + 1287*(-x3 + 1)*((-2)*x2 - x3 + 1)^5 + 630*(x3 - 1)^4*((-2)*x2 - x3 + 1)^2 + 330*(x3 - 1)^3*((-2)*x2 - x3 + 1)^3)/(x3 - 1);
  (-2)*(780*x2*(x3 - 1)^6 + 365*(x3 - 1)^7 + 165*(x3 - 1)^5*(2*x2 + x3 - 1)^2 - 3740*(x3 - 1)^4*(2*x2 + x3 - 1)^3 + 2145*(x3 - 1)^3*(2*x2 + x3 - 1)^4 + 6006*(x3 - 1)^2*(2*x2 + x3 - 1)^5 - 5005*(x3 - 1)*(2*x2 + x3 - 1)^6)/(64*x3 - 64);
  1/32*(24*x1 + 12*x2 + 12*x3 - 12)*((-600)*x3 + 2184*(2*x3 - 1)^5 + 4095*(2*x3 - 1)^4 + 1820*(2*x3 - 1)^3 - 390*(2*x3 - 1)^2 + 283);
  1/8*(7*x2 + x3 - 1)*(24*x1 + 12*x2 + 12*x3 - 12)*(156*x3 + 455*(2*x3 - 1)^4 + 910*(2*x3 - 1)^3 + 546*(2*x3 - 1)^2 - 87);
  (20*x2*(x3 - 1)^2 + 8*(x3 - 1)^3 - 9*(x3 - 1)*(2*x2 + x3 - 1)^2)*((-24)*x1 - 12*x2 - 12*x3 + 12)*(588*x3 + 280*(2*x3 - 1)^3 + 525*(2*x3 - 1)^2 - 249)/(8*x3 - 8);
  1/16*(90*x3 + 30*(2*x3 - 1)^2 - 29)*(24*x1 + 12*x2 + 12*x3 - 12)*(126*x2*(x3 - 1)^3 - 225*(-x3 + 1)^2*((-2)*x2 - x3 + 1)^2 + 165*(-x3 + 1)*((-2)*x2 - x3 + 1)^3 + 68*(x3 - 1)^4)/(x3 - 1);
  1/32*(16*x3 - 1)*(24*x1 + 12*x2 + 12*x3 - 12)*(200*x2*(x3 - 1)^3 + 71*(x3 - 1)^4 + 330*(x3 - 1)^2*(2*x2 + x3 - 1)^2 - 1100*(x3 - 1)*(2*x2 + x3 - 1)^3 + 715*(2*x2 + x3 - 1)^4);
  ((-24)*x1 - 12*x2 - 12*x3 + 12)*(770*x2*(x3 - 1)^5 + 386*(x3 - 1)^6 - 990*(x3 - 1)^4*(2*x2 + x3 - 1)^2 - 1430*(x3 - 1)^3*(2*x2 + x3 - 1)^3 + 5005*(x3 - 1)^2*(2*x2 + x3 - 1)^4 - 3003*(x3 - 1)*(2*x2 + x3 - 1)^5)/(64*x3 - 64);
  (-(6*(x2 + x3 - 1)^3 - 30*(x2 + x3 - 1)*(2*x1 + x2 + x3 - 1)^2))*(156*x3 + 455*(2*x3 - 1)^4 + 910*(2*x3 - 1)^3 + 546*(2*x3 - 1)^2 - 87)/(8*x2 + 8*x3 - 8);
  1/8*(30*(-x2 - x3 + 1)*(2*x1 + x2 + x3 - 1)^2 + 6*(x2 + x3 - 1)^3)*(9*x2 + x3 - 1)*(588*x3 + 280*(2*x3 - 1)^3 + 525*(2*x3 - 1)^2 - 249)/(-x2 - x3 + 1);
  1/8*(30*(-x2 - x3 + 1)*(2*x1 + x2 + x3 - 1)^2 + 6*(x2 + x3 - 1)^3)*(90*x3 + 30*(2*x3 - 1)^2 - 29)*(140*x2*(x3 - 1)^2 + 55*(-x3 + 1)*((-2)*x2 - x3 + 1)^2 + 51*(x3 - 1)^3)/((x3 - 1)*(x2 + x3 - 1));
  (-(16*x3 - 1))*(6*(x2 + x3 - 1)^3 - 30*(x2 + x3 - 1)*(2*x1 + x2 + x3 - 1)^2)*(198*x2*(x3 - 1)^2 + 92*(x3 - 1)^3 - 231*(x3 - 1)*(2*x2 + x3 - 1)^2 + 143*(2*x2 + x3 - 1)^3)/(8*x2 + 8*x3 - 8);
  (6*(x2 + x3 - 1)^3 - 30*(x2 + x3 - 1)*(2*x1 + x2 + x3 - 1)^2)*(168*x2*(x3 - 1)^3 + 127*(x3 - 1)^4 - 1326*(x3 - 1)^2*(2*x2 + x3 - 1)^2 + 2548*(x3 - 1)*(2*x2 + x3 - 1)^3 - 1365*(2*x2 + x3 - 1)^4)/(32*x2 + 32*x3 - 32);
  1/32*((-30)*(x2 + x3 - 1)^2*(8*x1 + 4*x2 + 4*x3 - 4) + 280*(2*x1 + x2 + x3 - 1)^3)*(588*x3 + 280*(2*x3 - 1)^3 + 525*(2*x3 - 1)^2 - 249);
  1/8*((-30)*(x2 + x3 - 1)^2*(8*x1 + 4*x2 + 4*x3 - 4) + 280*(2*x1 + x2 + x3 - 1)^3)*(11*x2 + x3 - 1)*(90*x3 + 30*(2*x3 - 1)^2 - 29);
  (-(16*x3 - 1))*((-30)*(x2 + x3 - 1)^2*(8*x1 + 4*x2 + 4*x3 - 4) + 280*(2*x1 + x2 + x3 - 1)^3)*(108*x2*(x3 - 1)^2 + 37*(x3 - 1)^3 - 39*(x3 - 1)*(2*x2 + x3 - 1)^2)/(16*x3 - 16);
  1/64*((-30)*(x2 + x3 - 1)^2*(8*x1 + 4*x2 + 4*x3 - 4) + 280*(2*x1 + x2 + x3 - 1)^3)*(858*x2*(x3 - 1)^3 - 819*(-x3 + 1)^2*((-2)*x2 - x3 + 1)^2 + 455*(-x3 + 1)*((-2)*x2 - x3 + 1)^3 + 372*(x3 - 1)^4)/(x3 - 1);
  1/8*(90*x3 + 30*(2*x3 - 1)^2 - 29)*((-630)*(-x2 - x3 + 1)*((-2)*x1 - x2 - x3 + 1)^4 + 30*(x2 + x3 - 1)^5 - 420*(x2 + x3 - 1)^3*((-2)*x1 - x2 - x3 + 1)^2)/(x2 + x3 - 1);
  1/8*(16*x3 - 1)*(13*x2 + x3 - 1)*((-630)*(-x2 - x3 + 1)*((-2)*x1 - x2 - x3 + 1)^4 + 30*(x2 + x3 - 1)^5 - 420*(x2 + x3 - 1)^3*((-2)*x1 - x2 - x3 + 1)^2)/(x2 + x3 - 1);
  (-1)/32*(308*x2*(x3 - 1)^2 + 101*(x3 - 1)^3 - 105*(x3 - 1)*(2*x2 + x3 - 1)^2)*(30*(x2 + x3 - 1)^5 - 420*(x2 + x3 - 1)^3*(2*x1 + x2 + x3 - 1)^2 + 630*(x2 + x3 - 1)*(2*x1 + x2 + x3 - 1)^4)/((x3 - 1)*(x2 + x3 - 1));
  1/16*(16*x3 - 1)*(105*(x2 + x3 - 1)^4*(8*x1 + 4*x2 + 4*x3 - 4) - 2520*(x2 + x3 - 1)^2*(2*x1 + x2 + x3 - 1)^3 + 2772*(2*x1 + x2 + x3 - 1)^5);
  1/16*(15*x2 + x3 - 1)*(105*(x2 + x3 - 1)^4*(8*x1 + 4*x2 + 4*x3 - 4) - 2520*(x2 + x3 - 1)^2*(2*x1 + x2 + x3 - 1)^3 + 2772*(2*x1 + x2 + x3 - 1)^5);
  (-(70*(x2 + x3 - 1)^7 - 1890*(x2 + x3 - 1)^5*(2*x1 + x2 + x3 - 1)^2 + 6930*(x2 + x3 - 1)^3*(2*x1 + x2 + x3 - 1)^4 - 6006*(x2 + x3 - 1)*(2*x1 + x2 + x3 - 1)^6))/(16*x2 + 16*x3 - 16);
  0;
  0;
  0;
  0;
  0;
  0;
  0;
  0;
  0;
  63/2*x3 + 1989/4*(2*x3 - 1)^7 + 1547/2*(2*x3 - 1)^6 - 273/4*(2*x3 - 1)^5 - 4095/8*(2*x3 - 1)^4 - 455/4*(2*x3 - 1)^3 + 273/4*(2*x3 - 1)^2 - 133/8;
  1/8*(5*x2 + x3 - 1)*((-156)*x3 + 4641*(2*x3 - 1)^6 + 9282*(2*x3 - 1)^5 + 4095*(2*x3 - 1)^4 - 1820*(2*x3 - 1)^3 - 1365*(2*x3 - 1)^2 + 107);
  (-2)*(36*x2*(x3 - 1)^2 + 17*(x3 - 1)^3 - 21*(x3 - 1)*(2*x2 + x3 - 1)^2)*((-210)*x3 + 1071*(2*x3 - 1)^5 + 2380*(2*x3 - 1)^4 + 1610*(2*x3 - 1)^3 + 210*(2*x3 - 1)^2 + 87)/(16*x3 - 16);
  1/4*(2*(x3 - 1)^3 - 21*(x3 - 1)*(2*x2 + x3 - 1)^2 + 21*(2*x2 + x3 - 1)^3)*(600*x3 + 765*(2*x3 - 1)^4 + 1700*(2*x3 - 1)^3 + 1230*(2*x3 - 1)^2 - 291);
  1/4*(252*x3 + 102*(2*x3 - 1)^3 + 204*(2*x3 - 1)^2 - 103)*(88*x2*(x3 - 1)^3 + 41*(x3 - 1)^4 - 18*(x3 - 1)^2*(2*x2 + x3 - 1)^2 - 180*(x3 - 1)*(2*x2 + x3 - 1)^3 + 165*(2*x2 + x3 - 1)^4);
  1/64*(476*x3 + 153*(2*x3 - 1)^2 - 149)*((-90)*x2*(x3 - 1)^5 - 70*(-x3 + 1)^6 - 1485*(-x3 + 1)^2*((-2)*x2 - x3 + 1)^4 + 1287*(-x3 + 1)*((-2)*x2 - x3 + 1)^5 + 630*(x3 - 1)^4*((-2)*x2 - x3 + 1)^2 + 330*(x3 - 1)^3*((-2)*x2 - x3 + 1)^3)/(x3 - 1);
  (-2)*(18*x3 - 1)*(780*x2*(x3 - 1)^6 + 365*(x3 - 1)^7 + 165*(x3 - 1)^5*(2*x2 + x3 - 1)^2 - 3740*(x3 - 1)^4*(2*x2 + x3 - 1)^3 + 2145*(x3 - 1)^3*(2*x2 + x3 - 1)^4 + 6006*(x3 - 1)^2*(2*x2 + x3 - 1)^5 - 5005*(x3 - 1)*(2*x2 + x3 - 1)^6)/(64*x3 - 64);
  1/16*(154*x2*(x3 - 1)^7 - 924*(-x3 + 1)^6*((-2)*x2 - x3 + 1)^2 - 6006*(-x3 + 1)^2*((-2)*x2 - x3 + 1)^6 + 4862*(-x3 + 1)*((-2)*x2 - x3 + 1)^7 + 98*(x3 - 1)^8 + 5005*(x3 - 1)^4*((-2)*x2 - x3 + 1)^4 + 3003*(x3 - 1)^3*((-2)*x2 - x3 + 1)^5)/(x3 - 1);
  1/32*(24*x1 + 12*x2 + 12*x3 - 12)*((-156)*x3 + 4641*(2*x3 - 1)^6 + 9282*(2*x3 - 1)^5 + 4095*(2*x3 - 1)^4 - 1820*(2*x3 - 1)^3 - 1365*(2*x3 - 1)^2 + 107);
  1/8*(7*x2 + x3 - 1)*(24*x1 + 12*x2 + 12*x3 - 12)*((-210)*x3 + 1071*(2*x3 - 1)^5 + 2380*(2*x3 - 1)^4 + 1610*(2*x3 - 1)^3 + 210*(2*x3 - 1)^2 + 87);
  (20*x2*(x3 - 1)^2 + 8*(x3 - 1)^3 - 9*(x3 - 1)*(2*x2 + x3 - 1)^2)*((-24)*x1 - 12*x2 - 12*x3 + 12)*(600*x3 + 765*(2*x3 - 1)^4 + 1700*(2*x3 - 1)^3 + 1230*(2*x3 - 1)^2 - 291)/(8*x3 - 8);
  1/16*(24*x1 + 12*x2 + 12*x3 - 12)*(252*x3 + 102*(2*x3 - 1)^3 + 204*(2*x3 - 1)^2 - 103)*(126*x2*(x3 - 1)^3 - 225*(-x3 + 1)^2*((-2)*x2 - x3 + 1)^2 + 165*(-x3 + 1)*((-2)*x2 - x3 + 1)^3 + 68*(x3 - 1)^4)/(x3 - 1);
  1/128*(476*x3 + 153*(2*x3 - 1)^2 - 149)*(24*x1 + 12*x2 + 12*x3 - 12)*(200*x2*(x3 - 1)^3 + 71*(x3 - 1)^4 + 330*(x3 - 1)^2*(2*x2 + x3 - 1)^2 - 1100*(x3 - 1)*(2*x2 + x3 - 1)^3 + 715*(2*x2 + x3 - 1)^4);
  (18*x3 - 1)*((-24)*x1 - 12*x2 - 12*x3 + 12)*(770*x2*(x3 - 1)^5 + 386*(x3 - 1)^6 - 990*(x3 - 1)^4*(2*x2 + x3 - 1)^2 - 1430*(x3 - 1)^3*(2*x2 + x3 - 1)^3 + 5005*(x3 - 1)^2*(2*x2 + x3 - 1)^4 - 3003*(x3 - 1)*(2*x2 + x3 - 1)^5)/(64*x3 - 64);
  1/32*((-24)*x1 - 12*x2 - 12*x3 + 12)*(96*x2*(x3 - 1)^5 + 23*(x3 - 1)^6 + 780*(x3 - 1)^4*(2*x2 + x3 - 1)^2 - 1820*(x3 - 1)^3*(2*x2 + x3 - 1)^3 - 1365*(x3 - 1)^2*(2*x2 + x3 - 1)^4 + 5460*(x3 - 1)*(2*x2 + x3 - 1)^5 - 3094*(2*x2 + x3 - 1)^6);
  (-(6*(x2 + x3 - 1)^3 - 30*(x2 + x3 - 1)*(2*x1 + x2 + x3 - 1)^2))*((-210)*x3 + 1071*(2*x3 - 1)^5 + 2380*(2*x3 - 1)^4 + 1610*(2*x3 - 1)^3 + 210*(2*x3 - 1)^2 + 87)/(8*x2 + 8*x3 - 8);
  1/8*(30*(-x2 - x3 + 1)*(2*x1 + x2 + x3 - 1)^2 + 6*(x2 + x3 - 1)^3)*(9*x2 + x3 - 1)*(600*x3 + 765*(2*x3 - 1)^4 + 1700*(2*x3 - 1)^3 + 1230*(2*x3 - 1)^2 - 291)/(-x2 - x3 + 1);
  1/8*(30*(-x2 - x3 + 1)*(2*x1 + x2 + x3 - 1)^2 + 6*(x2 + x3 - 1)^3)*(140*x2*(x3 - 1)^2 + 55*(-x3 + 1)*((-2)*x2 - x3 + 1)^2 + 51*(x3 - 1)^3)*(252*x3 + 102*(2*x3 - 1)^3 + 204*(2*x3 - 1)^2 - 103)/((x3 - 1)*(x2 + x3 - 1));
  (-(6*(x2 + x3 - 1)^3 - 30*(x2 + x3 - 1)*(2*x1 + x2 + x3 - 1)^2))*(476*x3 + 153*(2*x3 - 1)^2 - 149)*(198*x2*(x3 - 1)^2 + 92*(x3 - 1)^3 - 231*(x3 - 1)*(2*x2 + x3 - 1)^2 + 143*(2*x2 + x3 - 1)^3)/(32*x2 + 32*x3 - 32);
  1/32*(18*x3 - 1)*(30*(-x2 - x3 + 1)*(2*x1 + x2 + x3 - 1)^2 + 6*(x2 + x3 - 1)^3)*((-168)*x2*(x3 - 1)^3 - 127*(x3 - 1)^4 + 1326*(x3 - 1)^2*(2*x2 + x3 - 1)^2 - 2548*(x3 - 1)*(2*x2 + x3 - 1)^3 + 1365*(2*x2 + x3 - 1)^4)/(-x2 - x3 + 1);
  1/16*(30*(-x2 - x3 + 1)*(2*x1 + x2 + x3 - 1)^2 + 6*(x2 + x3 - 1)^3)*(390*x2*(x3 - 1)^5 + 1820*(-x3 + 1)^3*(2*x2 + x3 - 1)^3 + 1547*(-x3 + 1)*(2*x2 + x3 - 1)^5 + 174*(x3 - 1)^6 + 3185*(x3 - 1)^2*(2*x2 + x3 - 1)^4)/((x3 - 1)*(x2 + x3 - 1));
  1/32*((-30)*(x2 + x3 - 1)^2*(8*x1 + 4*x2 + 4*x3 - 4) + 280*(2*x1 + x2 + x3 - 1)^3)*(600*x3 + 765*(2*x3 - 1)^4 + 1700*(2*x3 - 1)^3 + 1230*(2*x3 - 1)^2 - 291);
  1/8*((-30)*(x2 + x3 - 1)^2*(8*x1 + 4*x2 + 4*x3 - 4) + 280*(2*x1 + x2 + x3 - 1)^3)*(11*x2 + x3 - 1)*(252*x3 + 102*(2*x3 - 1)^3 + 204*(2*x3 - 1)^2 - 103);
  (-((-30)*(x2 + x3 - 1)^2*(8*x1 + 4*x2 + 4*x3 - 4) + 280*(2*x1 + x2 + x3 - 1)^3))*(476*x3 + 153*(2*x3 - 1)^2 - 149)*(108*x2*(x3 - 1)^2 + 37*(x3 - 1)^3 - 39*(x3 - 1)*(2*x2 + x3 - 1)^2)/(64*x3 - 64);
  1/64*(18*x3 - 1)*((-30)*(x2 + x3 - 1)^2*(8*x1 + 4*x2 + 4*x3 - 4) + 280*(2*x1 + x2 + x3 - 1)^3)*(858*x2*(x3 - 1)^3 - 819*(-x3 + 1)^2*((-2)*x2 - x3 + 1)^2 + 455*(-x3 + 1)*((-2)*x2 - x3 + 1)^3 + 372*(x3 - 1)^4)/(x3 - 1);
  1/32*((-30)*(x2 + x3 - 1)^2*(8*x1 + 4*x2 + 4*x3 - 4) + 280*(2*x1 + x2 + x3 - 1)^3)*((-336)*x2*(x3 - 1)^3 - 171*(x3 - 1)^4 + 840*(x3 - 1)^2*(2*x2 + x3 - 1)^2 - 1260*(x3 - 1)*(2*x2 + x3 - 1)^3 + 595*(2*x2 + x3 - 1)^4);
  1/8*((-630)*(-x2 - x3 + 1)*((-2)*x1 - x2 - x3 + 1)^4 + 30*(x2 + x3 - 1)^5 - 420*(x2 + x3 - 1)^3*((-2)*x1 - x2 - x3 + 1)^2)*(252*x3 + 102*(2*x3 - 1)^3 + 204*(2*x3 - 1)^2 - 103)/(x2 + x3 - 1);
  1/32*(13*x2 + x3 - 1)*(476*x3 + 153*(2*x3 - 1)^2 - 149)*((-630)*(-x2 - x3 + 1)*((-2)*x1 - x2 - x3 + 1)^4 + 30*(x2 + x3 - 1)^5 - 420*(x2 + x3 - 1)^3*((-2)*x1 - x2 - x3 + 1)^2)/(x2 + x3 - 1);
  (-1)/32*(18*x3 - 1)*(308*x2*(x3 - 1)^2 + 101*(x3 - 1)^3 - 105*(x3 - 1)*(2*x2 + x3 - 1)^2)*(30*(x2 + x3 - 1)^5 - 420*(x2 + x3 - 1)^3*(2*x1 + x2 + x3 - 1)^2 + 630*(x2 + x3 - 1)*(2*x1 + x2 + x3 - 1)^4)/((x3 - 1)*(x2 + x3 - 1));
  1/8*((-630)*(-x2 - x3 + 1)*((-2)*x1 - x2 - x3 + 1)^4 + 30*(x2 + x3 - 1)^5 - 420*(x2 + x3 - 1)^3*((-2)*x1 - x2 - x3 + 1)^2)*(195*x2*(x3 - 1)^2 + 81*(x3 - 1)^3 - 165*(x3 - 1)*((-2)*x2 - x3 + 1)^2 - 85*((-2)*x2 - x3 + 1)^3)/(x2 + x3 - 1);
  1/64*(476*x3 + 153*(2*x3 - 1)^2 - 149)*(105*(x2 + x3 - 1)^4*(8*x1 + 4*x2 + 4*x3 - 4) - 2520*(x2 + x3 - 1)^2*(2*x1 + x2 + x3 - 1)^3 + 2772*(2*x1 + x2 + x3 - 1)^5);
  1/16*(18*x3 - 1)*(15*x2 + x3 - 1)*(105*(x2 + x3 - 1)^4*(8*x1 + 4*x2 + 4*x3 - 4) - 2520*(x2 + x3 - 1)^2*(2*x1 + x2 + x3 - 1)^3 + 2772*(2*x1 + x2 + x3 - 1)^5);
  (104*x2*(x3 - 1)^2 + 33*(x3 - 1)^3 - 34*(x3 - 1)*(2*x2 + x3 - 1)^2)*((-105)*(x2 + x3 - 1)^4*(8*x1 + 4*x2 + 4*x3 - 4) + 2520*(x2 + x3 - 1)^2*(2*x1 + x2 + x3 - 1)^3 - 2772*(2*x1 + x2 + x3 - 1)^5)/(16*x3 - 16);
  (-(18*x3 - 1))*(70*(x2 + x3 - 1)^7 - 1890*(x2 + x3 - 1)^5*(2*x1 + x2 + x3 - 1)^2 + 6930*(x2 + x3 - 1)^3*(2*x1 + x2 + x3 - 1)^4 - 6006*(x2 + x3 - 1)*(2*x1 + x2 + x3 - 1)^6)/(16*x2 + 16*x3 - 16);
  (-(17*x2 + x3 - 1))*(70*(x2 + x3 - 1)^7 - 1890*(x2 + x3 - 1)^5*(2*x1 + x2 + x3 - 1)^2 + 6930*(x2 + x3 - 1)^3*(2*x1 + x2 + x3 - 1)^4 - 6006*(x2 + x3 - 1)*(2*x1 + x2 + x3 - 1)^6)/(16*x2 + 16*x3 - 16);
  (-315)/32*(x2 + x3 - 1)^6*(8*x1 + 4*x2 + 4*x3 - 4) + 3465/8*(x2 + x3 - 1)^4*(2*x1 + x2 + x3 - 1)^3 - 9009/8*(x2 + x3 - 1)^2*(2*x1 + x2 + x3 - 1)^5 + 6435/8*(2*x1 + x2 + x3 - 1)^7;
  0;
  0;
  0;
  0;
  0;
  0;
  0;
  0;
  0;
  0;
  (-91)/4*x3 + 62985/64*(2*x3 - 1)^8 + 12597/8*(2*x3 - 1)^7 - 4641/16*(2*x3 - 1)^6 - 10829/8*(2*x3 - 1)^5 - 8645/32*(2*x3 - 1)^4 + 2275/8*(2*x3 - 1)^3 + 1183/16*(2*x3 - 1)^2 + 609/64;
  1/8*(5*x2 + x3 - 1)*(616*x3 + 9690*(2*x3 - 1)^7 + 20349*(2*x3 - 1)^6 + 8568*(2*x3 - 1)^5 - 6545*(2*x3 - 1)^4 - 4830*(2*x3 - 1)^3 - 105*(2*x3 - 1)^2 - 287);
  (-2)*(36*x2*(x3 - 1)^2 + 17*(x3 - 1)^3 - 21*(x3 - 1)*(2*x2 + x3 - 1)^2)*((-600)*x3 + 4845*(2*x3 - 1)^6 + 11628*(2*x3 - 1)^5 + 8415*(2*x3 - 1)^4 + 680*(2*x3 - 1)^3 - 1245*(2*x3 - 1)^2 + 301)/(32*x3 - 32);
  1/4*(2*(x3 - 1)^3 - 21*(x3 - 1)*(2*x2 + x3 - 1)^2 + 21*(2*x2 + x3 - 1)^3)*((-20)*x3 + 1938*(2*x3 - 1)^5 + 4845*(2*x3 - 1)^4 + 4080*(2*x3 - 1)^3 + 1190*(2*x3 - 1)^2 - 21);
  1/64*(5848*x3 + 4845*(2*x3 - 1)^4 + 11628*(2*x3 - 1)^3 + 9486*(2*x3 - 1)^2 - 2687)*(88*x2*(x3 - 1)^3 + 41*(x3 - 1)^4 - 18*(x3 - 1)^2*(2*x2 + x3 - 1)^2 - 180*(x3 - 1)*(2*x2 + x3 - 1)^3 + 165*(2*x2 + x3 - 1)^4);
  1/64*(1584*x3 + 570*(2*x3 - 1)^3 + 1197*(2*x3 - 1)^2 - 631)*((-90)*x2*(x3 - 1)^5 - 70*(-x3 + 1)^6 - 1485*(-x3 + 1)^2*((-2)*x2 - x3 + 1)^4 + 1287*(-x3 + 1)*((-2)*x2 - x3 + 1)^5 + 630*(x3 - 1)^4*((-2)*x2 - x3 + 1)^2 + 330*(x3 - 1)^3*((-2)*x2 - x3 + 1)^3)/(x3 - 1);
  (-2)*(304*x3 + 95*(2*x3 - 1)^2 - 93)*(780*x2*(x3 - 1)^6 + 365*(x3 - 1)^7 + 165*(x3 - 1)^5*(2*x2 + x3 - 1)^2 - 3740*(x3 - 1)^4*(2*x2 + x3 - 1)^3 + 2145*(x3 - 1)^3*(2*x2 + x3 - 1)^4 + 6006*(x3 - 1)^2*(2*x2 + x3 - 1)^5 - 5005*(x3 - 1)*(2*x2 + x3 - 1)^6)/(128*x3 - 128);
  1/16*(20*x3 - 1)*(154*x2*(x3 - 1)^7 - 924*(-x3 + 1)^6*((-2)*x2 - x3 + 1)^2 - 6006*(-x3 + 1)^2*((-2)*x2 - x3 + 1)^6 + 4862*(-x3 + 1)*((-2)*x2 - x3 + 1)^7 + 98*(x3 - 1)^8 + 5005*(x3 - 1)^4*((-2)*x2 - x3 + 1)^4 + 3003*(x3 - 1)^3*((-2)*x2 - x3 + 1)^5)/(x3 - 1);
  105/4*x2*(x3 - 1)^7 + 1729/8*(-x3 + 1)^5*(2*x2 + x3 - 1)^3 - 7735/16*(-x3 + 1)^2*(2*x2 + x3 - 1)^6 + 5967/8*(-x3 + 1)*(2*x2 + x3 - 1)^7 + 791/64*(x3 - 1)^8 + 273/16*(x3 - 1)^6*(2*x2 + x3 - 1)^2 + 1365/32*(x3 - 1)^4*(2*x2 + x3 - 1)^4 + 6279/8*(x3 - 1)^3*(2*x2 + x3 - 1)^5 + 37791/64*(2*x2 + x3 - 1)^8;
  1/32*(24*x1 + 12*x2 + 12*x3 - 12)*(616*x3 + 9690*(2*x3 - 1)^7 + 20349*(2*x3 - 1)^6 + 8568*(2*x3 - 1)^5 - 6545*(2*x3 - 1)^4 - 4830*(2*x3 - 1)^3 - 105*(2*x3 - 1)^2 - 287);
  1/16*(7*x2 + x3 - 1)*(24*x1 + 12*x2 + 12*x3 - 12)*((-600)*x3 + 4845*(2*x3 - 1)^6 + 11628*(2*x3 - 1)^5 + 8415*(2*x3 - 1)^4 + 680*(2*x3 - 1)^3 - 1245*(2*x3 - 1)^2 + 301);
  (20*x2*(x3 - 1)^2 + 8*(x3 - 1)^3 - 9*(x3 - 1)*(2*x2 + x3 - 1)^2)*((-24)*x1 - 12*x2 - 12*x3 + 12)*((-20)*x3 + 1938*(2*x3 - 1)^5 + 4845*(2*x3 - 1)^4 + 4080*(2*x3 - 1)^3 + 1190*(2*x3 - 1)^2 - 21)/(8*x3 - 8);
  1/256*(24*x1 + 12*x2 + 12*x3 - 12)*(126*x2*(x3 - 1)^3 - 225*(-x3 + 1)^2*((-2)*x2 - x3 + 1)^2 + 165*(-x3 + 1)*((-2)*x2 - x3 + 1)^3 + 68*(x3 - 1)^4)*(5848*x3 + 4845*(2*x3 - 1)^4 + 11628*(2*x3 - 1)^3 + 9486*(2*x3 - 1)^2 - 2687)/(x3 - 1);
  1/128*(24*x1 + 12*x2 + 12*x3 - 12)*(1584*x3 + 570*(2*x3 - 1)^3 + 1197*(2*x3 - 1)^2 - 631)*(200*x2*(x3 - 1)^3 + 71*(x3 - 1)^4 + 330*(x3 - 1)^2*(2*x2 + x3 - 1)^2 - 1100*(x3 - 1)*(2*x2 + x3 - 1)^3 + 715*(2*x2 + x3 - 1)^4);
  (304*x3 + 95*(2*x3 - 1)^2 - 93)*((-24)*x1 - 12*x2 - 12*x3 + 12)*(770*x2*(x3 - 1)^5 + 386*(x3 - 1)^6 - 990*(x3 - 1)^4*(2*x2 + x3 - 1)^2 - 1430*(x3 - 1)^3*(2*x2 + x3 - 1)^3 + 5005*(x3 - 1)^2*(2*x2 + x3 - 1)^4 - 3003*(x3 - 1)*(2*x2 + x3 - 1)^5)/(128*x3 - 128);
  1/32*(20*x3 - 1)*((-24)*x1 - 12*x2 - 12*x3 + 12)*(96*x2*(x3 - 1)^5 + 23*(x3 - 1)^6 + 780*(x3 - 1)^4*(2*x2 + x3 - 1)^2 - 1820*(x3 - 1)^3*(2*x2 + x3 - 1)^3 - 1365*(x3 - 1)^2*(2*x2 + x3 - 1)^4 + 5460*(x3 - 1)*(2*x2 + x3 - 1)^5 - 3094*(2*x2 + x3 - 1)^6);
  1/64*(24*x1 + 12*x2 + 12*x3 - 12)*(910*x2*(x3 - 1)^7 - 819*(-x3 + 1)^6*((-2)*x2 - x3 + 1)^2 + 4641*(-x3 + 1)^3*((-2)*x2 - x3 + 1)^5 - 23205*(-x3 + 1)^2*((-2)*x2 - x3 + 1)^6 + 12597*(-x3 + 1)*((-2)*x2 - x3 + 1)^7 + 448*(x3 - 1)^8 + 5005*(x3 - 1)^5*((-2)*x2 - x3 + 1)^3 + 11375*(x3 - 1)^4*((-2)*x2 - x3 + 1)^4)/(x3 - 1);
  (-(6*(x2 + x3 - 1)^3 - 30*(x2 + x3 - 1)*(2*x1 + x2 + x3 - 1)^2))*((-600)*x3 + 4845*(2*x3 - 1)^6 + 11628*(2*x3 - 1)^5 + 8415*(2*x3 - 1)^4 + 680*(2*x3 - 1)^3 - 1245*(2*x3 - 1)^2 + 301)/(16*x2 + 16*x3 - 16);
  1/8*(30*(-x2 - x3 + 1)*(2*x1 + x2 + x3 - 1)^2 + 6*(x2 + x3 - 1)^3)*(9*x2 + x3 - 1)*((-20)*x3 + 1938*(2*x3 - 1)^5 + 4845*(2*x3 - 1)^4 + 4080*(2*x3 - 1)^3 + 1190*(2*x3 - 1)^2 - 21)/(-x2 - x3 + 1);
  1/128*(30*(-x2 - x3 + 1)*(2*x1 + x2 + x3 - 1)^2 + 6*(x2 + x3 - 1)^3)*(140*x2*(x3 - 1)^2 + 55*(-x3 + 1)*((-2)*x2 - x3 + 1)^2 + 51*(x3 - 1)^3)*(5848*x3 + 4845*(2*x3 - 1)^4 + 11628*(2*x3 - 1)^3 + 9486*(2*x3 - 1)^2 - 2687)/((x3 - 1)*(x2 + x3 - 1));
  (-(6*(x2 + x3 - 1)^3 - 30*(x2 + x3 - 1)*(2*x1 + x2 + x3 - 1)^2))*(1584*x3 + 570*(2*x3 - 1)^3 + 1197*(2*x3 - 1)^2 - 631)*(198*x2*(x3 - 1)^2 + 92*(x3 - 1)^3 - 231*(x3 - 1)*(2*x2 + x3 - 1)^2 + 143*(2*x2 + x3 - 1)^3)/(32*x2 + 32*x3 - 32);
  (6*(x2 + x3 - 1)^3 - 30*(x2 + x3 - 1)*(2*x1 + x2 + x3 - 1)^2)*(304*x3 + 95*(2*x3 - 1)^2 - 93)*(168*x2*(x3 - 1)^3 + 127*(x3 - 1)^4 - 1326*(x3 - 1)^2*(2*x2 + x3 - 1)^2 + 2548*(x3 - 1)*(2*x2 + x3 - 1)^3 - 1365*(2*x2 + x3 - 1)^4)/(64*x2 + 64*x3 - 64);
  1/16*(20*x3 - 1)*(30*(-x2 - x3 + 1)*(2*x1 + x2 + x3 - 1)^2 + 6*(x2 + x3 - 1)^3)*(390*x2*(x3 - 1)^5 + 1820*(-x3 + 1)^3*(2*x2 + x3 - 1)^3 + 1547*(-x3 + 1)*(2*x2 + x3 - 1)^5 + 174*(x3 - 1)^6 + 3185*(x3 - 1)^2*(2*x2 + x3 - 1)^4)/((x3 - 1)*(x2 + x3 - 1));
  (-(6*(x2 + x3 - 1)^3 - 30*(x2 + x3 - 1)*(2*x1 + x2 + x3 - 1)^2))*(588*x2*(x3 - 1)^5 + 317*(x3 - 1)^6 - 1995*(x3 - 1)^4*(2*x2 + x3 - 1)^2 + 980*(x3 - 1)^3*(2*x2 + x3 - 1)^3 + 8925*(x3 - 1)^2*(2*x2 + x3 - 1)^4 - 14994*(x3 - 1)*(2*x2 + x3 - 1)^5 + 6783*(2*x2 + x3 - 1)^6)/(32*x2 + 32*x3 - 32);
  1/32*((-30)*(x2 + x3 - 1)^2*(8*x1 + 4*x2 + 4*x3 - 4) + 280*(2*x1 + x2 + x3 - 1)^3)*((-20)*x3 + 1938*(2*x3 - 1)^5 + 4845*(2*x3 - 1)^4 + 4080*(2*x3 - 1)^3 + 1190*(2*x3 - 1)^2 - 21);
  1/128*((-30)*(x2 + x3 - 1)^2*(8*x1 + 4*x2 + 4*x3 - 4) + 280*(2*x1 + x2 + x3 - 1)^3)*(11*x2 + x3 - 1)*(5848*x3 + 4845*(2*x3 - 1)^4 + 11628*(2*x3 - 1)^3 + 9486*(2*x3 - 1)^2 - 2687);
  (-((-30)*(x2 + x3 - 1)^2*(8*x1 + 4*x2 + 4*x3 - 4) + 280*(2*x1 + x2 + x3 - 1)^3))*(108*x2*(x3 - 1)^2 + 37*(x3 - 1)^3 - 39*(x3 - 1)*(2*x2 + x3 - 1)^2)*(1584*x3 + 570*(2*x3 - 1)^3 + 1197*(2*x3 - 1)^2 - 631)/(64*x3 - 64);
  1/128*((-30)*(x2 + x3 - 1)^2*(8*x1 + 4*x2 + 4*x3 - 4) + 280*(2*x1 + x2 + x3 - 1)^3)*(304*x3 + 95*(2*x3 - 1)^2 - 93)*(858*x2*(x3 - 1)^3 - 819*(-x3 + 1)^2*((-2)*x2 - x3 + 1)^2 + 455*(-x3 + 1)*((-2)*x2 - x3 + 1)^3 + 372*(x3 - 1)^4)/(x3 - 1);
  1/32*(20*x3 - 1)*((-30)*(x2 + x3 - 1)^2*(8*x1 + 4*x2 + 4*x3 - 4) + 280*(2*x1 + x2 + x3 - 1)^3)*((-336)*x2*(x3 - 1)^3 - 171*(x3 - 1)^4 + 840*(x3 - 1)^2*(2*x2 + x3 - 1)^2 - 1260*(x3 - 1)*(2*x2 + x3 - 1)^3 + 595*(2*x2 + x3 - 1)^4);
  (-((-30)*(x2 + x3 - 1)^2*(8*x1 + 4*x2 + 4*x3 - 4) + 280*(2*x1 + x2 + x3 - 1)^3))*(330*x2*(x3 - 1)^5 + 114*(x3 - 1)^6 + 1170*(x3 - 1)^4*(2*x2 + x3 - 1)^2 - 5270*(x3 - 1)^3*(2*x2 + x3 - 1)^3 + 6885*(x3 - 1)^2*(2*x2 + x3 - 1)^4 - 2907*(x3 - 1)*(2*x2 + x3 - 1)^5)/(64*x3 - 64);
  1/128*((-630)*(-x2 - x3 + 1)*((-2)*x1 - x2 - x3 + 1)^4 + 30*(x2 + x3 - 1)^5 - 420*(x2 + x3 - 1)^3*((-2)*x1 - x2 - x3 + 1)^2)*(5848*x3 + 4845*(2*x3 - 1)^4 + 11628*(2*x3 - 1)^3 + 9486*(2*x3 - 1)^2 - 2687)/(x2 + x3 - 1);
  1/32*(13*x2 + x3 - 1)*((-630)*(-x2 - x3 + 1)*((-2)*x1 - x2 - x3 + 1)^4 + 30*(x2 + x3 - 1)^5 - 420*(x2 + x3 - 1)^3*((-2)*x1 - x2 - x3 + 1)^2)*(1584*x3 + 570*(2*x3 - 1)^3 + 1197*(2*x3 - 1)^2 - 631)/(x2 + x3 - 1);
  (-1)/64*(304*x3 + 95*(2*x3 - 1)^2 - 93)*(308*x2*(x3 - 1)^2 + 101*(x3 - 1)^3 - 105*(x3 - 1)*(2*x2 + x3 - 1)^2)*(30*(x2 + x3 - 1)^5 - 420*(x2 + x3 - 1)^3*(2*x1 + x2 + x3 - 1)^2 + 630*(x2 + x3 - 1)*(2*x1 + x2 + x3 - 1)^4)/((x3 - 1)*(x2 + x3 - 1));
  1/8*(20*x3 - 1)*((-630)*(-x2 - x3 + 1)*((-2)*x1 - x2 - x3 + 1)^4 + 30*(x2 + x3 - 1)^5 - 420*(x2 + x3 - 1)^3*((-2)*x1 - x2 - x3 + 1)^2)*(195*x2*(x3 - 1)^2 + 81*(x3 - 1)^3 - 165*(x3 - 1)*((-2)*x2 - x3 + 1)^2 - 85*((-2)*x2 - x3 + 1)^3)/(x2 + x3 - 1);
  1/32*((-630)*(-x2 - x3 + 1)*((-2)*x1 - x2 - x3 + 1)^4 + 30*(x2 + x3 - 1)^5 - 420*(x2 + x3 - 1)^3*((-2)*x1 - x2 - x3 + 1)^2)*((-968)*x2*(x3 - 1)^3 - 455*(x3 - 1)^4 + 1734*(x3 - 1)^2*(2*x2 + x3 - 1)^2 - 2244*(x3 - 1)*(2*x2 + x3 - 1)^3 + 969*(2*x2 + x3 - 1)^4)/(x2 + x3 - 1);
  1/64*(105*(x2 + x3 - 1)^4*(8*x1 + 4*x2 + 4*x3 - 4) - 2520*(x2 + x3 - 1)^2*(2*x1 + x2 + x3 - 1)^3 + 2772*(2*x1 + x2 + x3 - 1)^5)*(1584*x3 + 570*(2*x3 - 1)^3 + 1197*(2*x3 - 1)^2 - 631);
  1/32*(15*x2 + x3 - 1)*(304*x3 + 95*(2*x3 - 1)^2 - 93)*(105*(x2 + x3 - 1)^4*(8*x1 + 4*x2 + 4*x3 - 4) - 2520*(x2 + x3 - 1)^2*(2*x1 + x2 + x3 - 1)^3 + 2772*(2*x1 + x2 + x3 - 1)^5);
  (20*x3 - 1)*(104*x2*(x3 - 1)^2 + 33*(x3 - 1)^3 - 34*(x3 - 1)*(2*x2 + x3 - 1)^2)*((-105)*(x2 + x3 - 1)^4*(8*x1 + 4*x2 + 4*x3 - 4) + 2520*(x2 + x3 - 1)^2*(2*x1 + x2 + x3 - 1)^3 - 2772*(2*x1 + x2 + x3 - 1)^5)/(16*x3 - 16);
  1/128*(105*(x2 + x3 - 1)^4*(8*x1 + 4*x2 + 4*x3 - 4) - 2520*(x2 + x3 - 1)^2*(2*x1 + x2 + x3 - 1)^3 + 2772*(2*x1 + x2 + x3 - 1)^5)*(2550*x2*(x3 - 1)^3 - 1989*(-x3 + 1)^2*((-2)*x2 - x3 + 1)^2 + 969*(-x3 + 1)*((-2)*x2 - x3 + 1)^3 + 1028*(x3 - 1)^4)/(x3 - 1);
  (-(304*x3 + 95*(2*x3 - 1)^2 - 93))*(70*(x2 + x3 - 1)^7 - 1890*(x2 + x3 - 1)^5*(2*x1 + x2 + x3 - 1)^2 + 6930*(x2 + x3 - 1)^3*(2*x1 + x2 + x3 - 1)^4 - 6006*(x2 + x3 - 1)*(2*x1 + x2 + x3 - 1)^6)/(32*x2 + 32*x3 - 32);
  (-(20*x3 - 1))*(17*x2 + x3 - 1)*(70*(x2 + x3 - 1)^7 - 1890*(x2 + x3 - 1)^5*(2*x1 + x2 + x3 - 1)^2 + 6930*(x2 + x3 - 1)^3*(2*x1 + x2 + x3 - 1)^4 - 6006*(x2 + x3 - 1)*(2*x1 + x2 + x3 - 1)^6)/(16*x2 + 16*x3 - 16);
  1/64*(540*x2*(x3 - 1)^2 + 171*(-x3 + 1)*((-2)*x2 - x3 + 1)^2 + 167*(x3 - 1)^3)*(1890*(-x2 - x3 + 1)^5*(2*x1 + x2 + x3 - 1)^2 + 6006*(-x2 - x3 + 1)*(2*x1 + x2 + x3 - 1)^6 + 70*(x2 + x3 - 1)^7 + 6930*(x2 + x3 - 1)^3*(2*x1 + x2 + x3 - 1)^4)/((x3 - 1)*(x2 + x3 - 1));
  1/128*(20*x3 - 1)*((-1260)*(x2 + x3 - 1)^6*(8*x1 + 4*x2 + 4*x3 - 4) + 55440*(x2 + x3 - 1)^4*(2*x1 + x2 + x3 - 1)^3 - 144144*(x2 + x3 - 1)^2*(2*x1 + x2 + x3 - 1)^5 + 102960*(2*x1 + x2 + x3 - 1)^7);
  1/128*(19*x2 + x3 - 1)*((-1260)*(x2 + x3 - 1)^6*(8*x1 + 4*x2 + 4*x3 - 4) + 55440*(x2 + x3 - 1)^4*(2*x1 + x2 + x3 - 1)^3 - 144144*(x2 + x3 - 1)^2*(2*x1 + x2 + x3 - 1)^5 + 102960*(2*x1 + x2 + x3 - 1)^7);
  1/128*((-180180)*(-x2 - x3 + 1)^5*((-2)*x1 - x2 - x3 + 1)^4 - 218790*(-x2 - x3 + 1)*((-2)*x1 - x2 - x3 + 1)^8 + 630*(x2 + x3 - 1)^9 - 27720*(x2 + x3 - 1)^7*((-2)*x1 - x2 - x3 + 1)^2 - 360360*(x2 + x3 - 1)^3*((-2)*x1 - x2 - x3 + 1)^6)/(x2 + x3 - 1);
  0;
  0;
  0;
  0;
  0;
  0;
  0;
  0;
  0;
  0;
  0;
  (-1197)/32*x3 + 124355/64*(2*x3 - 1)^9 + 101745/32*(2*x3 - 1)^8 - 14535/16*(2*x3 - 1)^7 - 6783/2*(2*x3 - 1)^6 - 18207/32*(2*x3 - 1)^5 + 16065/16*(2*x3 - 1)^4 + 4305/16*(2*x3 - 1)^3 - 315/4*(2*x3 - 1)^2 + 1239/64;
  1/64*(5*x2 + x3 - 1)*(2640*x3 + 159885*(2*x3 - 1)^8 + 348840*(2*x3 - 1)^7 + 135660*(2*x3 - 1)^6 - 162792*(2*x3 - 1)^5 - 117810*(2*x3 - 1)^4 + 4760*(2*x3 - 1)^3 + 14700*(2*x3 - 1)^2 - 1499);
  (-2)*(36*x2*(x3 - 1)^2 + 17*(x3 - 1)^3 - 21*(x3 - 1)*(2*x2 + x3 - 1)^2)*(182*x3 + 10659*(2*x3 - 1)^7 + 27132*(2*x3 - 1)^6 + 20349*(2*x3 - 1)^5 - 5355*(2*x3 - 1)^3 - 1428*(2*x3 - 1)^2 - 59)/(32*x3 - 32);
  1/64*(2*(x3 - 1)^3 - 21*(x3 - 1)*(2*x2 + x3 - 1)^2 + 21*(2*x2 + x3 - 1)^3)*((-10812)*x3 + 74613*(2*x3 - 1)^6 + 203490*(2*x3 - 1)^5 + 188955*(2*x3 - 1)^4 + 58140*(2*x3 - 1)^3 - 6885*(2*x3 - 1)^2 + 5011);
  1/64*(88*x2*(x3 - 1)^3 + 41*(x3 - 1)^4 - 18*(x3 - 1)^2*(2*x2 + x3 - 1)^2 - 180*(x3 - 1)*(2*x2 + x3 - 1)^3 + 165*(2*x2 + x3 - 1)^4)*(3150*x3 + 13167*(2*x3 - 1)^5 + 35910*(2*x3 - 1)^4 + 34770*(2*x3 - 1)^3 + 13680*(2*x3 - 1)^2 - 1669);
  1/256*(11704*x3 + 7315*(2*x3 - 1)^4 + 18620*(2*x3 - 1)^3 + 16530*(2*x3 - 1)^2 - 5209)*((-90)*x2*(x3 - 1)^5 - 70*(-x3 + 1)^6 - 1485*(-x3 + 1)^2*((-2)*x2 - x3 + 1)^4 + 1287*(-x3 + 1)*((-2)*x2 - x3 + 1)^5 + 630*(x3 - 1)^4*((-2)*x2 - x3 + 1)^2 + 330*(x3 - 1)^3*((-2)*x2 - x3 + 1)^3)/(x3 - 1);
  (-2)*(1170*x3 + 385*(2*x3 - 1)^3 + 840*(2*x3 - 1)^2 - 457)*(780*x2*(x3 - 1)^6 + 365*(x3 - 1)^7 + 165*(x3 - 1)^5*(2*x2 + x3 - 1)^2 - 3740*(x3 - 1)^4*(2*x2 + x3 - 1)^3 + 2145*(x3 - 1)^3*(2*x2 + x3 - 1)^4 + 6006*(x3 - 1)^2*(2*x2 + x3 - 1)^5 - 5005*(x3 - 1)*(2*x2 + x3 - 1)^6)/(128*x3 - 128);
  1/64*(756*x3 + 231*(2*x3 - 1)^2 - 227)*(154*x2*(x3 - 1)^7 - 924*(-x3 + 1)^6*((-2)*x2 - x3 + 1)^2 - 6006*(-x3 + 1)^2*((-2)*x2 - x3 + 1)^6 + 4862*(-x3 + 1)*((-2)*x2 - x3 + 1)^7 + 98*(x3 - 1)^8 + 5005*(x3 - 1)^4*((-2)*x2 - x3 + 1)^4 + 3003*(x3 - 1)^3*((-2)*x2 - x3 + 1)^5)/(x3 - 1);
  1/64*(22*x3 - 1)*(1680*x2*(x3 - 1)^7 + 13832*(-x3 + 1)^5*(2*x2 + x3 - 1)^3 - 30940*(-x3 + 1)^2*(2*x2 + x3 - 1)^6 + 47736*(-x3 + 1)*(2*x2 + x3 - 1)^7 + 791*(x3 - 1)^8 + 1092*(x3 - 1)^6*(2*x2 + x3 - 1)^2 + 2730*(x3 - 1)^4*(2*x2 + x3 - 1)^4 + 50232*(x3 - 1)^3*(2*x2 + x3 - 1)^5 + 37791*(2*x2 + x3 - 1)^8);
  (-2)*(1638*x2*(x3 - 1)^9 + 966*(x3 - 1)^10 - 9828*(x3 - 1)^8*(2*x2 + x3 - 1)^2 - 5460*(x3 - 1)^7*(2*x2 + x3 - 1)^3 + 90090*(x3 - 1)^6*(2*x2 + x3 - 1)^4 - 27846*(x3 - 1)^5*(2*x2 + x3 - 1)^5 - 241332*(x3 - 1)^4*(2*x2 + x3 - 1)^6 + 151164*(x3 - 1)^3*(2*x2 + x3 - 1)^7 + 188955*(x3 - 1)^2*(2*x2 + x3 - 1)^8 - 146965*(x3 - 1)*(2*x2 + x3 - 1)^9)/(256*x3 - 256);
  1/256*(24*x1 + 12*x2 + 12*x3 - 12)*(2640*x3 + 159885*(2*x3 - 1)^8 + 348840*(2*x3 - 1)^7 + 135660*(2*x3 - 1)^6 - 162792*(2*x3 - 1)^5 - 117810*(2*x3 - 1)^4 + 4760*(2*x3 - 1)^3 + 14700*(2*x3 - 1)^2 - 1499);
  1/16*(7*x2 + x3 - 1)*(24*x1 + 12*x2 + 12*x3 - 12)*(182*x3 + 10659*(2*x3 - 1)^7 + 27132*(2*x3 - 1)^6 + 20349*(2*x3 - 1)^5 - 5355*(2*x3 - 1)^3 - 1428*(2*x3 - 1)^2 - 59);
  (20*x2*(x3 - 1)^2 + 8*(x3 - 1)^3 - 9*(x3 - 1)*(2*x2 + x3 - 1)^2)*((-24)*x1 - 12*x2 - 12*x3 + 12)*((-10812)*x3 + 74613*(2*x3 - 1)^6 + 203490*(2*x3 - 1)^5 + 188955*(2*x3 - 1)^4 + 58140*(2*x3 - 1)^3 - 6885*(2*x3 - 1)^2 + 5011)/(128*x3 - 128);
  1/256*(24*x1 + 12*x2 + 12*x3 - 12)*(126*x2*(x3 - 1)^3 - 225*(-x3 + 1)^2*((-2)*x2 - x3 + 1)^2 + 165*(-x3 + 1)*((-2)*x2 - x3 + 1)^3 + 68*(x3 - 1)^4)*(3150*x3 + 13167*(2*x3 - 1)^5 + 35910*(2*x3 - 1)^4 + 34770*(2*x3 - 1)^3 + 13680*(2*x3 - 1)^2 - 1669)/(x3 - 1);
  1/512*(24*x1 + 12*x2 + 12*x3 - 12)*(11704*x3 + 7315*(2*x3 - 1)^4 + 18620*(2*x3 - 1)^3 + 16530*(2*x3 - 1)^2 - 5209)*(200*x2*(x3 - 1)^3 + 71*(x3 - 1)^4 + 330*(x3 - 1)^2*(2*x2 + x3 - 1)^2 - 1100*(x3 - 1)*(2*x2 + x3 - 1)^3 + 715*(2*x2 + x3 - 1)^4);
  ((-24)*x1 - 12*x2 - 12*x3 + 12)*(1170*x3 + 385*(2*x3 - 1)^3 + 840*(2*x3 - 1)^2 - 457)*(770*x2*(x3 - 1)^5 + 386*(x3 - 1)^6 - 990*(x3 - 1)^4*(2*x2 + x3 - 1)^2 - 1430*(x3 - 1)^3*(2*x2 + x3 - 1)^3 + 5005*(x3 - 1)^2*(2*x2 + x3 - 1)^4 - 3003*(x3 - 1)*(2*x2 + x3 - 1)^5)/(128*x3 - 128);
  1/128*(756*x3 + 231*(2*x3 - 1)^2 - 227)*((-24)*x1 - 12*x2 - 12*x3 + 12)*(96*x2*(x3 - 1)^5 + 23*(x3 - 1)^6 + 780*(x3 - 1)^4*(2*x2 + x3 - 1)^2 - 1820*(x3 - 1)^3*(2*x2 + x3 - 1)^3 - 1365*(x3 - 1)^2*(2*x2 + x3 - 1)^4 + 5460*(x3 - 1)*(2*x2 + x3 - 1)^5 - 3094*(2*x2 + x3 - 1)^6);
  1/64*(22*x3 - 1)*(24*x1 + 12*x2 + 12*x3 - 12)*(910*x2*(x3 - 1)^7 - 819*(-x3 + 1)^6*((-2)*x2 - x3 + 1)^2 + 4641*(-x3 + 1)^3*((-2)*x2 - x3 + 1)^5 - 23205*(-x3 + 1)^2*((-2)*x2 - x3 + 1)^6 + 12597*(-x3 + 1)*((-2)*x2 - x3 + 1)^7 + 448*(x3 - 1)^8 + 5005*(x3 - 1)^5*((-2)*x2 - x3 + 1)^3 + 11375*(x3 - 1)^4*((-2)*x2 - x3 + 1)^4)/(x3 - 1);
  1/256*(24*x1 + 12*x2 + 12*x3 - 12)*(112*x2*(x3 - 1)^7 - 119*(-x3 + 1)^8 + 17080*(-x3 + 1)^5*(2*x2 + x3 - 1)^3 - 55930*(-x3 + 1)^4*(2*x2 + x3 - 1)^4 + 193800*(-x3 + 1)*(2*x2 + x3 - 1)^7 + 9660*(x3 - 1)^6*(2*x2 + x3 - 1)^2 + 128520*(x3 - 1)^3*(2*x2 + x3 - 1)^5 + 27132*(x3 - 1)^2*(2*x2 + x3 - 1)^6 + 101745*(2*x2 + x3 - 1)^8);
  (-(6*(x2 + x3 - 1)^3 - 30*(x2 + x3 - 1)*(2*x1 + x2 + x3 - 1)^2))*(182*x3 + 10659*(2*x3 - 1)^7 + 27132*(2*x3 - 1)^6 + 20349*(2*x3 - 1)^5 - 5355*(2*x3 - 1)^3 - 1428*(2*x3 - 1)^2 - 59)/(16*x2 + 16*x3 - 16);
  1/128*(30*(-x2 - x3 + 1)*(2*x1 + x2 + x3 - 1)^2 + 6*(x2 + x3 - 1)^3)*(9*x2 + x3 - 1)*((-10812)*x3 + 74613*(2*x3 - 1)^6 + 203490*(2*x3 - 1)^5 + 188955*(2*x3 - 1)^4 + 58140*(2*x3 - 1)^3 - 6885*(2*x3 - 1)^2 + 5011)/(-x2 - x3 + 1);
  1/128*(30*(-x2 - x3 + 1)*(2*x1 + x2 + x3 - 1)^2 + 6*(x2 + x3 - 1)^3)*(140*x2*(x3 - 1)^2 + 55*(-x3 + 1)*((-2)*x2 - x3 + 1)^2 + 51*(x3 - 1)^3)*(3150*x3 + 13167*(2*x3 - 1)^5 + 35910*(2*x3 - 1)^4 + 34770*(2*x3 - 1)^3 + 13680*(2*x3 - 1)^2 - 1669)/((x3 - 1)*(x2 + x3 - 1));
  (-(6*(x2 + x3 - 1)^3 - 30*(x2 + x3 - 1)*(2*x1 + x2 + x3 - 1)^2))*(198*x2*(x3 - 1)^2 + 92*(x3 - 1)^3 - 231*(x3 - 1)*(2*x2 + x3 - 1)^2 + 143*(2*x2 + x3 - 1)^3)*(11704*x3 + 7315*(2*x3 - 1)^4 + 18620*(2*x3 - 1)^3 + 16530*(2*x3 - 1)^2 - 5209)/(128*x2 + 128*x3 - 128);
  (6*(x2 + x3 - 1)^3 - 30*(x2 + x3 - 1)*(2*x1 + x2 + x3 - 1)^2)*(1170*x3 + 385*(2*x3 - 1)^3 + 840*(2*x3 - 1)^2 - 457)*(168*x2*(x3 - 1)^3 + 127*(x3 - 1)^4 - 1326*(x3 - 1)^2*(2*x2 + x3 - 1)^2 + 2548*(x3 - 1)*(2*x2 + x3 - 1)^3 - 1365*(2*x2 + x3 - 1)^4)/(64*x2 + 64*x3 - 64);
  1/64*(30*(-x2 - x3 + 1)*(2*x1 + x2 + x3 - 1)^2 + 6*(x2 + x3 - 1)^3)*(756*x3 + 231*(2*x3 - 1)^2 - 227)*(390*x2*(x3 - 1)^5 + 1820*(-x3 + 1)^3*(2*x2 + x3 - 1)^3 + 1547*(-x3 + 1)*(2*x2 + x3 - 1)^5 + 174*(x3 - 1)^6 + 3185*(x3 - 1)^2*(2*x2 + x3 - 1)^4)/((x3 - 1)*(x2 + x3 - 1));
  (-(22*x3 - 1))*(6*(x2 + x3 - 1)^3 - 30*(x2 + x3 - 1)*(2*x1 + x2 + x3 - 1)^2)*(588*x2*(x3 - 1)^5 + 317*(x3 - 1)^6 - 1995*(x3 - 1)^4*(2*x2 + x3 - 1)^2 + 980*(x3 - 1)^3*(2*x2 + x3 - 1)^3 + 8925*(x3 - 1)^2*(2*x2 + x3 - 1)^4 - 14994*(x3 - 1)*(2*x2 + x3 - 1)^5 + 6783*(2*x2 + x3 - 1)^6)/(32*x2 + 32*x3 - 32);
  (-1)/32*(6*(x2 + x3 - 1)^3 - 30*(x2 + x3 - 1)*(2*x1 + x2 + x3 - 1)^2)*(630*x2*(x3 - 1)^7 + 272*(x3 - 1)^8 + 1155*(x3 - 1)^6*(2*x2 + x3 - 1)^2 - 7735*(x3 - 1)^5*(2*x2 + x3 - 1)^3 + 5355*(x3 - 1)^4*(2*x2 + x3 - 1)^4 + 20349*(x3 - 1)^3*(2*x2 + x3 - 1)^5 - 33915*(x3 - 1)^2*(2*x2 + x3 - 1)^6 + 14535*(x3 - 1)*(2*x2 + x3 - 1)^7)/((x3 - 1)*(x2 + x3 - 1));
  1/512*((-30)*(x2 + x3 - 1)^2*(8*x1 + 4*x2 + 4*x3 - 4) + 280*(2*x1 + x2 + x3 - 1)^3)*((-10812)*x3 + 74613*(2*x3 - 1)^6 + 203490*(2*x3 - 1)^5 + 188955*(2*x3 - 1)^4 + 58140*(2*x3 - 1)^3 - 6885*(2*x3 - 1)^2 + 5011);
  1/128*((-30)*(x2 + x3 - 1)^2*(8*x1 + 4*x2 + 4*x3 - 4) + 280*(2*x1 + x2 + x3 - 1)^3)*(11*x2 + x3 - 1)*(3150*x3 + 13167*(2*x3 - 1)^5 + 35910*(2*x3 - 1)^4 + 34770*(2*x3 - 1)^3 + 13680*(2*x3 - 1)^2 - 1669);
  (-((-30)*(x2 + x3 - 1)^2*(8*x1 + 4*x2 + 4*x3 - 4) + 280*(2*x1 + x2 + x3 - 1)^3))*(108*x2*(x3 - 1)^2 + 37*(x3 - 1)^3 - 39*(x3 - 1)*(2*x2 + x3 - 1)^2)*(11704*x3 + 7315*(2*x3 - 1)^4 + 18620*(2*x3 - 1)^3 + 16530*(2*x3 - 1)^2 - 5209)/(256*x3 - 256);
  1/128*((-30)*(x2 + x3 - 1)^2*(8*x1 + 4*x2 + 4*x3 - 4) + 280*(2*x1 + x2 + x3 - 1)^3)*(1170*x3 + 385*(2*x3 - 1)^3 + 840*(2*x3 - 1)^2 - 457)*(858*x2*(x3 - 1)^3 - 819*(-x3 + 1)^2*((-2)*x2 - x3 + 1)^2 + 455*(-x3 + 1)*((-2)*x2 - x3 + 1)^3 + 372*(x3 - 1)^4)/(x3 - 1);
  1/128*((-30)*(x2 + x3 - 1)^2*(8*x1 + 4*x2 + 4*x3 - 4) + 280*(2*x1 + x2 + x3 - 1)^3)*(756*x3 + 231*(2*x3 - 1)^2 - 227)*((-336)*x2*(x3 - 1)^3 - 171*(x3 - 1)^4 + 840*(x3 - 1)^2*(2*x2 + x3 - 1)^2 - 1260*(x3 - 1)*(2*x2 + x3 - 1)^3 + 595*(2*x2 + x3 - 1)^4);
  (-(22*x3 - 1))*((-30)*(x2 + x3 - 1)^2*(8*x1 + 4*x2 + 4*x3 - 4) + 280*(2*x1 + x2 + x3 - 1)^3)*(330*x2*(x3 - 1)^5 + 114*(x3 - 1)^6 + 1170*(x3 - 1)^4*(2*x2 + x3 - 1)^2 - 5270*(x3 - 1)^3*(2*x2 + x3 - 1)^3 + 6885*(x3 - 1)^2*(2*x2 + x3 - 1)^4 - 2907*(x3 - 1)*(2*x2 + x3 - 1)^5)/(64*x3 - 64);
  1/64*((-30)*(x2 + x3 - 1)^2*(8*x1 + 4*x2 + 4*x3 - 4) + 280*(2*x1 + x2 + x3 - 1)^3)*(972*x2*(x3 - 1)^5 + 467*(x3 - 1)^6 - 1275*(x3 - 1)^4*(2*x2 + x3 - 1)^2 - 3060*(x3 - 1)^3*(2*x2 + x3 - 1)^3 + 14535*(x3 - 1)^2*(2*x2 + x3 - 1)^4 - 17442*(x3 - 1)*(2*x2 + x3 - 1)^5 + 6783*(2*x2 + x3 - 1)^6);
  1/128*((-630)*(-x2 - x3 + 1)*((-2)*x1 - x2 - x3 + 1)^4 + 30*(x2 + x3 - 1)^5 - 420*(x2 + x3 - 1)^3*((-2)*x1 - x2 - x3 + 1)^2)*(3150*x3 + 13167*(2*x3 - 1)^5 + 35910*(2*x3 - 1)^4 + 34770*(2*x3 - 1)^3 + 13680*(2*x3 - 1)^2 - 1669)/(x2 + x3 - 1);
  1/128*(13*x2 + x3 - 1)*((-630)*(-x2 - x3 + 1)*((-2)*x1 - x2 - x3 + 1)^4 + 30*(x2 + x3 - 1)^5 - 420*(x2 + x3 - 1)^3*((-2)*x1 - x2 - x3 + 1)^2)*(11704*x3 + 7315*(2*x3 - 1)^4 + 18620*(2*x3 - 1)^3 + 16530*(2*x3 - 1)^2 - 5209)/(x2 + x3 - 1);
  (-1)/64*(308*x2*(x3 - 1)^2 + 101*(x3 - 1)^3 - 105*(x3 - 1)*(2*x2 + x3 - 1)^2)*(30*(x2 + x3 - 1)^5 - 420*(x2 + x3 - 1)^3*(2*x1 + x2 + x3 - 1)^2 + 630*(x2 + x3 - 1)*(2*x1 + x2 + x3 - 1)^4)*(1170*x3 + 385*(2*x3 - 1)^3 + 840*(2*x3 - 1)^2 - 457)/((x3 - 1)*(x2 + x3 - 1));
  1/32*(756*x3 + 231*(2*x3 - 1)^2 - 227)*((-630)*(-x2 - x3 + 1)*((-2)*x1 - x2 - x3 + 1)^4 + 30*(x2 + x3 - 1)^5 - 420*(x2 + x3 - 1)^3*((-2)*x1 - x2 - x3 + 1)^2)*(195*x2*(x3 - 1)^2 + 81*(x3 - 1)^3 - 165*(x3 - 1)*((-2)*x2 - x3 + 1)^2 - 85*((-2)*x2 - x3 + 1)^3)/(x2 + x3 - 1);
  1/32*(22*x3 - 1)*((-630)*(-x2 - x3 + 1)*((-2)*x1 - x2 - x3 + 1)^4 + 30*(x2 + x3 - 1)^5 - 420*(x2 + x3 - 1)^3*((-2)*x1 - x2 - x3 + 1)^2)*((-968)*x2*(x3 - 1)^3 - 455*(x3 - 1)^4 + 1734*(x3 - 1)^2*(2*x2 + x3 - 1)^2 - 2244*(x3 - 1)*(2*x2 + x3 - 1)^3 + 969*(2*x2 + x3 - 1)^4)/(x2 + x3 - 1);
  1/256*(30*(x2 + x3 - 1)^5 - 420*(x2 + x3 - 1)^3*(2*x1 + x2 + x3 - 1)^2 + 630*(x2 + x3 - 1)*(2*x1 + x2 + x3 - 1)^4)*(2210*x2*(x3 - 1)^5 + 1358*(x3 - 1)^6 - 16830*(x3 - 1)^4*(2*x2 + x3 - 1)^2 + 48450*(x3 - 1)^3*(2*x2 + x3 - 1)^3 - 53295*(x3 - 1)^2*(2*x2 + x3 - 1)^4 + 20349*(x3 - 1)*(2*x2 + x3 - 1)^5)/((x3 - 1)*(x2 + x3 - 1));
  1/256*(105*(x2 + x3 - 1)^4*(8*x1 + 4*x2 + 4*x3 - 4) - 2520*(x2 + x3 - 1)^2*(2*x1 + x2 + x3 - 1)^3 + 2772*(2*x1 + x2 + x3 - 1)^5)*(11704*x3 + 7315*(2*x3 - 1)^4 + 18620*(2*x3 - 1)^3 + 16530*(2*x3 - 1)^2 - 5209);
  1/32*(15*x2 + x3 - 1)*(105*(x2 + x3 - 1)^4*(8*x1 + 4*x2 + 4*x3 - 4) - 2520*(x2 + x3 - 1)^2*(2*x1 + x2 + x3 - 1)^3 + 2772*(2*x1 + x2 + x3 - 1)^5)*(1170*x3 + 385*(2*x3 - 1)^3 + 840*(2*x3 - 1)^2 - 457);
  (756*x3 + 231*(2*x3 - 1)^2 - 227)*(104*x2*(x3 - 1)^2 + 33*(x3 - 1)^3 - 34*(x3 - 1)*(2*x2 + x3 - 1)^2)*((-105)*(x2 + x3 - 1)^4*(8*x1 + 4*x2 + 4*x3 - 4) + 2520*(x2 + x3 - 1)^2*(2*x1 + x2 + x3 - 1)^3 - 2772*(2*x1 + x2 + x3 - 1)^5)/(64*x3 - 64);
  1/128*(22*x3 - 1)*(105*(x2 + x3 - 1)^4*(8*x1 + 4*x2 + 4*x3 - 4) - 2520*(x2 + x3 - 1)^2*(2*x1 + x2 + x3 - 1)^3 + 2772*(2*x1 + x2 + x3 - 1)^5)*(2550*x2*(x3 - 1)^3 - 1989*(-x3 + 1)^2*((-2)*x2 - x3 + 1)^2 + 969*(-x3 + 1)*((-2)*x2 - x3 + 1)^3 + 1028*(x3 - 1)^4)/(x3 - 1);
  1/256*(105*(x2 + x3 - 1)^4*(8*x1 + 4*x2 + 4*x3 - 4) - 2520*(x2 + x3 - 1)^2*(2*x1 + x2 + x3 - 1)^3 + 2772*(2*x1 + x2 + x3 - 1)^5)*((-8424)*x2*(x3 - 1)^3 - 3803*(x3 - 1)^4 + 12654*(x3 - 1)^2*(2*x2 + x3 - 1)^2 - 14820*(x3 - 1)*(2*x2 + x3 - 1)^3 + 5985*(2*x2 + x3 - 1)^4);
  (-(1170*x3 + 385*(2*x3 - 1)^3 + 840*(2*x3 - 1)^2 - 457))*(70*(x2 + x3 - 1)^7 - 1890*(x2 + x3 - 1)^5*(2*x1 + x2 + x3 - 1)^2 + 6930*(x2 + x3 - 1)^3*(2*x1 + x2 + x3 - 1)^4 - 6006*(x2 + x3 - 1)*(2*x1 + x2 + x3 - 1)^6)/(32*x2 + 32*x3 - 32);
  (-(17*x2 + x3 - 1))*(756*x3 + 231*(2*x3 - 1)^2 - 227)*(70*(x2 + x3 - 1)^7 - 1890*(x2 + x3 - 1)^5*(2*x1 + x2 + x3 - 1)^2 + 6930*(x2 + x3 - 1)^3*(2*x1 + x2 + x3 - 1)^4 - 6006*(x2 + x3 - 1)*(2*x1 + x2 + x3 - 1)^6)/(64*x2 + 64*x3 - 64);
  1/64*(22*x3 - 1)*(540*x2*(x3 - 1)^2 + 171*(-x3 + 1)*((-2)*x2 - x3 + 1)^2 + 167*(x3 - 1)^3)*(1890*(-x2 - x3 + 1)^5*(2*x1 + x2 + x3 - 1)^2 + 6006*(-x2 - x3 + 1)*(2*x1 + x2 + x3 - 1)^6 + 70*(x2 + x3 - 1)^7 + 6930*(x2 + x3 - 1)^3*(2*x1 + x2 + x3 - 1)^4)/((x3 - 1)*(x2 + x3 - 1));
  (-(1938*x2*(x3 - 1)^2 + 764*(x3 - 1)^3 - 1425*(x3 - 1)*(2*x2 + x3 - 1)^2 + 665*(2*x2 + x3 - 1)^3))*(70*(x2 + x3 - 1)^7 - 1890*(x2 + x3 - 1)^5*(2*x1 + x2 + x3 - 1)^2 + 6930*(x2 + x3 - 1)^3*(2*x1 + x2 + x3 - 1)^4 - 6006*(x2 + x3 - 1)*(2*x1 + x2 + x3 - 1)^6)/(64*x2 + 64*x3 - 64);
  1/512*(756*x3 + 231*(2*x3 - 1)^2 - 227)*((-1260)*(x2 + x3 - 1)^6*(8*x1 + 4*x2 + 4*x3 - 4) + 55440*(x2 + x3 - 1)^4*(2*x1 + x2 + x3 - 1)^3 - 144144*(x2 + x3 - 1)^2*(2*x1 + x2 + x3 - 1)^5 + 102960*(2*x1 + x2 + x3 - 1)^7);
  1/128*(22*x3 - 1)*(19*x2 + x3 - 1)*((-1260)*(x2 + x3 - 1)^6*(8*x1 + 4*x2 + 4*x3 - 4) + 55440*(x2 + x3 - 1)^4*(2*x1 + x2 + x3 - 1)^3 - 144144*(x2 + x3 - 1)^2*(2*x1 + x2 + x3 - 1)^5 + 102960*(2*x1 + x2 + x3 - 1)^7);
  (-(340*x2*(x3 - 1)^2 + 103*(x3 - 1)^3 - 105*(x3 - 1)*(2*x2 + x3 - 1)^2))*((-1260)*(x2 + x3 - 1)^6*(8*x1 + 4*x2 + 4*x3 - 4) + 55440*(x2 + x3 - 1)^4*(2*x1 + x2 + x3 - 1)^3 - 144144*(x2 + x3 - 1)^2*(2*x1 + x2 + x3 - 1)^5 + 102960*(2*x1 + x2 + x3 - 1)^7)/(256*x3 - 256);
  1/128*(22*x3 - 1)*((-180180)*(-x2 - x3 + 1)^5*((-2)*x1 - x2 - x3 + 1)^4 - 218790*(-x2 - x3 + 1)*((-2)*x1 - x2 - x3 + 1)^8 + 630*(x2 + x3 - 1)^9 - 27720*(x2 + x3 - 1)^7*((-2)*x1 - x2 - x3 + 1)^2 - 360360*(x2 + x3 - 1)^3*((-2)*x1 - x2 - x3 + 1)^6)/(x2 + x3 - 1);
  1/128*(21*x2 + x3 - 1)*((-180180)*(-x2 - x3 + 1)^5*((-2)*x1 - x2 - x3 + 1)^4 - 218790*(-x2 - x3 + 1)*((-2)*x1 - x2 - x3 + 1)^8 + 630*(x2 + x3 - 1)^9 - 27720*(x2 + x3 - 1)^7*((-2)*x1 - x2 - x3 + 1)^2 - 360360*(x2 + x3 - 1)^3*((-2)*x1 - x2 - x3 + 1)^6)/(x2 + x3 - 1);
  3465/256*(x2 + x3 - 1)^8*(8*x1 + 4*x2 + 4*x3 - 4) - 15015/16*(x2 + x3 - 1)^6*(2*x1 + x2 + x3 - 1)^3 + 135135/32*(x2 + x3 - 1)^4*(2*x1 + x2 + x3 - 1)^5 - 109395/16*(x2 + x3 - 1)^2*(2*x1 + x2 + x3 - 1)^7 + 230945/64*(2*x1 + x2 + x3 - 1)^9].

(** src/dg/generated/basis_tet_der_xi2.inc:25-882 *)
Definition tet_d2 : list ex := [
  0;
  0;
  3;
  1;
  0;
  18*x3 - 3;
  20*x2 + 8*x3 - 8;
  6*x3 - 1;
  10*x1 + 10*x2 + 6*x3 - 6;
  6*x1 + 2*x2 + 2*x3 - 2;
  0;
  42*x3 + 21*(2*x3 - 1)^2 - 18;
  (-(8*x3 - 1))*(4*(x3 - 1)^2 - 5*(x3 - 1)*(8*x2 + 4*x3 - 4))/(2*x3 - 2);
  105*x2^2 + 90*x2*x3 - 90*x2 + 15*x3^2 - 30*x3 + 15;
  14*x3 + 7*(2*x3 - 1)^2 - 6;
  (8*x3 - 1)*(5*x2 + x3 - 1) + 5*(8*x3 - 1)*(2*x1 + x2 + x3 - 1);
  (-(36*(x3 - 1)^2 - 21*(x3 - 1)*(8*x2 + 4*x3 - 4)))*(2*x1 + x2 + x3 - 1)/(4*x3 - 4) - (36*x2*(x3 - 1)^2 + 17*(x3 - 1)^3 - 21*(x3 - 1)*(2*x2 + x3 - 1)^2)/(4*x3 - 4);
  1/2*(8*x3 - 1)*(12*x1 + 4*x2 + 4*x3 - 4);
  (-7)/2*(x2 + x3 - 1)^2 + 1/2*(7*x2 + x3 - 1)*(12*x1 + 4*x2 + 4*x3 - 4) + 21/2*(2*x1 + x2 + x3 - 1)^2;
  (-(18*x1*(x2 + x3 - 1)^2 + 12*(x2 + x3 - 1)^3 - 15*(x2 + x3 - 1)*(2*x1 + x2 + x3 - 1)^2 - 5*(2*x1 + x2 + x3 - 1)^3))/(2*x2 + 2*x3 - 2) + 2*(6*x1*(x2 + x3 - 1)^3 + 3*(x2 + x3 - 1)^4 - 5*(x2 + x3 - 1)*(2*x1 + x2 + x3 - 1)^3)/(2*x2 + 2*x3 - 2)^2;
  0;
  18*x3 + 45*(2*x3 - 1)^3 + 54*(2*x3 - 1)^2 - 12;
  (-(4*(x3 - 1)^2 - 5*(x3 - 1)*(8*x2 + 4*x3 - 4)))*(108*x3 + 45*(2*x3 - 1)^2 - 41)/(8*x3 - 8);
  (-(10*x3 - 1))*(30*(x3 - 1)^3 + 15*(x3 - 1)^2*(8*x2 + 4*x3 - 4) - 210*(x3 - 1)*(2*x2 + x3 - 1)^2)/(8*x3 - 8);
  3*(x3 - 1)^3 - 21/4*(x3 - 1)^2*(8*x2 + 4*x3 - 4) - 21*(x3 - 1)*(2*x2 + x3 - 1)^2 + 63*(2*x2 + x3 - 1)^3;
  6*x3 + 15*(2*x3 - 1)^3 + 18*(2*x3 - 1)^2 - 4;
  1/4*(5*x2 + x3 - 1)*(108*x3 + 45*(2*x3 - 1)^2 - 41) + 5/4*(108*x3 + 45*(2*x3 - 1)^2 - 41)*(2*x1 + x2 + x3 - 1);
  (-(10*x3 - 1))*(36*(x3 - 1)^2 - 21*(x3 - 1)*(8*x2 + 4*x3 - 4))*(2*x1 + x2 + x3 - 1)/(4*x3 - 4) - (10*x3 - 1)*(36*x2*(x3 - 1)^2 + 17*(x3 - 1)^3 - 21*(x3 - 1)*(2*x2 + x3 - 1)^2)/(4*x3 - 4);
  (x3 - 1)^3 - 21/2*(x3 - 1)*(2*x2 + x3 - 1)^2 + 1/2*((-21)*(x3 - 1)*(8*x2 + 4*x3 - 4) + 126*(2*x2 + x3 - 1)^2)*(2*x1 + x2 + x3 - 1) + 21/2*(2*x2 + x3 - 1)^3;
  1/8*(108*x3 + 45*(2*x3 - 1)^2 - 41)*(12*x1 + 4*x2 + 4*x3 - 4);
  7/2*(10*x3 - 1)*(-(x2 + x3 - 1)^2 + 3*(2*x1 + x2 + x3 - 1)^2) + 1/2*(10*x3 - 1)*(7*x2 + x3 - 1)*(12*x1 + 4*x2 + 4*x3 - 4);
  (20*(x3 - 1)^2 - 9*(x3 - 1)*(8*x2 + 4*x3 - 4))*((x2 + x3 - 1)^2 - 3*(2*x1 + x2 + x3 - 1)^2)/(2*x3 - 2) + (20*x2*(x3 - 1)^2 + 8*(x3 - 1)^3 - 9*(x3 - 1)*(2*x2 + x3 - 1)^2)*((-12)*x1 - 4*x2 - 4*x3 + 4)/(2*x3 - 2);
  (-(10*x3 - 1))*(18*x1*(x2 + x3 - 1)^2 + 12*(x2 + x3 - 1)^3 - 15*(x2 + x3 - 1)*(2*x1 + x2 + x3 - 1)^2 - 5*(2*x1 + x2 + x3 - 1)^3)/(2*x2 + 2*x3 - 2) + 2*(10*x3 - 1)*(6*x1*(x2 + x3 - 1)^3 + 3*(x2 + x3 - 1)^4 - 5*(x2 + x3 - 1)*(2*x1 + x2 + x3 - 1)^3)/(2*x2 + 2*x3 - 2)^2;
  1/2*(9*x2 + x3 - 1)*(18*x1*(x2 + x3 - 1)^2 + 15*(-x2 - x3 + 1)*(2*x1 + x2 + x3 - 1)^2 + 12*(x2 + x3 - 1)^3 - 5*(2*x1 + x2 + x3 - 1)^3)/(-x2 - x3 + 1) + 9/2*(6*x1*(x2 + x3 - 1)^3 + 5*(-x2 - x3 + 1)*(2*x1 + x2 + x3 - 1)^3 + 3*(x2 + x3 - 1)^4)/(-x2 - x3 + 1) + 1/2*(9*x2 + x3 - 1)*(6*x1*(x2 + x3 - 1)^3 + 5*(-x2 - x3 + 1)*(2*x1 + x2 + x3 - 1)^3 + 3*(x2 + x3 - 1)^4)/(-x2 - x3 + 1)^2;
  3/2*(x2 + x3 - 1)^3 - 15/4*(x2 + x3 - 1)^2*(4*x1 + 2*x2 + 2*x3 - 2) - 15/4*(2*x2 + 2*x3 - 2)*(2*x1 + x2 + x3 - 1)^2 + 35/2*(2*x1 + x2 + x3 - 1)^3;
  0;
  (-81)/2*x3 + 1485/16*(2*x3 - 1)^4 + 495/4*(2*x3 - 1)^3 + 135/8*(2*x3 - 1)^2 + 273/16;
  (-(4*(x3 - 1)^2 - 5*(x3 - 1)*(8*x2 + 4*x3 - 4)))*(120*x3 + 110*(2*x3 - 1)^3 + 165*(2*x3 - 1)^2 - 59)/(8*x3 - 8);
  (-(88*x3 + 33*(2*x3 - 1)^2 - 31))*(30*(x3 - 1)^3 + 15*(x3 - 1)^2*(8*x2 + 4*x3 - 4) - 210*(x3 - 1)*(2*x2 + x3 - 1)^2)/(16*x3 - 16);
  1/8*(12*x3 - 1)*(24*(x3 - 1)^3 - 42*(x3 - 1)^2*(8*x2 + 4*x3 - 4) - 168*(x3 - 1)*(2*x2 + x3 - 1)^2 + 504*(2*x2 + x3 - 1)^3);
  1/16*(840*(-x3 + 1)^2*((-2)*x2 - x3 + 1)^3 - 2310*(-x3 + 1)*((-2)*x2 - x3 + 1)^4 + 70*(x3 - 1)^5 + 70*(x3 - 1)^4*(8*x2 + 4*x3 - 4) - 1260*(x3 - 1)^3*((-2)*x2 - x3 + 1)^2)/(x3 - 1);
  (-27)/2*x3 + 495/16*(2*x3 - 1)^4 + 165/4*(2*x3 - 1)^3 + 45/8*(2*x3 - 1)^2 + 91/16;
  1/4*(5*x2 + x3 - 1)*(120*x3 + 110*(2*x3 - 1)^3 + 165*(2*x3 - 1)^2 - 59) + 5/4*(2*x1 + x2 + x3 - 1)*(120*x3 + 110*(2*x3 - 1)^3 + 165*(2*x3 - 1)^2 - 59);
  (-(36*(x3 - 1)^2 - 21*(x3 - 1)*(8*x2 + 4*x3 - 4)))*(88*x3 + 33*(2*x3 - 1)^2 - 31)*(2*x1 + x2 + x3 - 1)/(8*x3 - 8) - (88*x3 + 33*(2*x3 - 1)^2 - 31)*(36*x2*(x3 - 1)^2 + 17*(x3 - 1)^3 - 21*(x3 - 1)*(2*x2 + x3 - 1)^2)/(8*x3 - 8);
  1/2*(12*x3 - 1)*((-21)*(x3 - 1)*(8*x2 + 4*x3 - 4) + 126*(2*x2 + x3 - 1)^2)*(2*x1 + x2 + x3 - 1) + 1/2*(12*x3 - 1)*(2*(x3 - 1)^3 - 21*(x3 - 1)*(2*x2 + x3 - 1)^2 + 21*(2*x2 + x3 - 1)^3);
  11*x2*(x3 - 1)^3 + 41/8*(x3 - 1)^4 - 9/4*(x3 - 1)^2*(2*x2 + x3 - 1)^2 - 45/2*(x3 - 1)*(2*x2 + x3 - 1)^3 + 165/8*(2*x2 + x3 - 1)^4 + 1/8*(2*x1 + x2 + x3 - 1)*(88*(x3 - 1)^3 - 18*(x3 - 1)^2*(8*x2 + 4*x3 - 4) - 1080*(x3 - 1)*(2*x2 + x3 - 1)^2 + 1320*(2*x2 + x3 - 1)^3);
  1/8*(12*x1 + 4*x2 + 4*x3 - 4)*(120*x3 + 110*(2*x3 - 1)^3 + 165*(2*x3 - 1)^2 - 59);
  7/4*(-(x2 + x3 - 1)^2 + 3*(2*x1 + x2 + x3 - 1)^2)*(88*x3 + 33*(2*x3 - 1)^2 - 31) + 1/4*(7*x2 + x3 - 1)*(88*x3 + 33*(2*x3 - 1)^2 - 31)*(12*x1 + 4*x2 + 4*x3 - 4);
  (12*x3 - 1)*(20*(x3 - 1)^2 - 9*(x3 - 1)*(8*x2 + 4*x3 - 4))*((x2 + x3 - 1)^2 - 3*(2*x1 + x2 + x3 - 1)^2)/(2*x3 - 2) + (12*x3 - 1)*(20*x2*(x3 - 1)^2 + 8*(x3 - 1)^3 - 9*(x3 - 1)*(2*x2 + x3 - 1)^2)*((-12)*x1 - 4*x2 - 4*x3 + 4)/(2*x3 - 2);
  1/16*(-(x2 + x3 - 1)^2 + 3*(2*x1 + x2 + x3 - 1)^2)*((-225)*(-x3 + 1)^2*(8*x2 + 4*x3 - 4) - 990*(-x3 + 1)*((-2)*x2 - x3 + 1)^2 + 126*(x3 - 1)^3)/(x3 - 1) + 1/16*(12*x1 + 4*x2 + 4*x3 - 4)*(126*x2*(x3 - 1)^3 - 225*(-x3 + 1)^2*((-2)*x2 - x3 + 1)^2 + 165*(-x3 + 1)*((-2)*x2 - x3 + 1)^3 + 68*(x3 - 1)^4)/(x3 - 1);
  (-(88*x3 + 33*(2*x3 - 1)^2 - 31))*(18*x1*(x2 + x3 - 1)^2 + 12*(x2 + x3 - 1)^3 - 15*(x2 + x3 - 1)*(2*x1 + x2 + x3 - 1)^2 - 5*(2*x1 + x2 + x3 - 1)^3)/(4*x2 + 4*x3 - 4) + 4*(88*x3 + 33*(2*x3 - 1)^2 - 31)*(6*x1*(x2 + x3 - 1)^3 + 3*(x2 + x3 - 1)^4 - 5*(x2 + x3 - 1)*(2*x1 + x2 + x3 - 1)^3)/(4*x2 + 4*x3 - 4)^2;
  1/2*(12*x3 - 1)*(9*x2 + x3 - 1)*(18*x1*(x2 + x3 - 1)^2 + 15*(-x2 - x3 + 1)*(2*x1 + x2 + x3 - 1)^2 + 12*(x2 + x3 - 1)^3 - 5*(2*x1 + x2 + x3 - 1)^3)/(-x2 - x3 + 1) + 9/2*(12*x3 - 1)*(6*x1*(x2 + x3 - 1)^3 + 5*(-x2 - x3 + 1)*(2*x1 + x2 + x3 - 1)^3 + 3*(x2 + x3 - 1)^4)/(-x2 - x3 + 1) + 1/2*(12*x3 - 1)*(9*x2 + x3 - 1)*(6*x1*(x2 + x3 - 1)^3 + 5*(-x2 - x3 + 1)*(2*x1 + x2 + x3 - 1)^3 + 3*(x2 + x3 - 1)^4)/(-x2 - x3 + 1)^2;
  1/8*(55*(-x3 + 1)*(8*x2 + 4*x3 - 4) + 140*(x3 - 1)^2)*(6*x1*(x2 + x3 - 1)^3 + 5*(-x2 - x3 + 1)*(2*x1 + x2 + x3 - 1)^3 + 3*(x2 + x3 - 1)^4)/((x3 - 1)*(x2 + x3 - 1)) + 1/8*(140*x2*(x3 - 1)^2 + 55*(-x3 + 1)*((-2)*x2 - x3 + 1)^2 + 51*(x3 - 1)^3)*(18*x1*(x2 + x3 - 1)^2 + 15*(-x2 - x3 + 1)*(2*x1 + x2 + x3 - 1)^2 + 12*(x2 + x3 - 1)^3 - 5*(2*x1 + x2 + x3 - 1)^3)/((x3 - 1)*(x2 + x3 - 1)) - 1/8*(6*x1*(x2 + x3 - 1)^3 + 5*(-x2 - x3 + 1)*(2*x1 + x2 + x3 - 1)^3 + 3*(x2 + x3 - 1)^4)*(140*x2*(x3 - 1)^2 + 55*(-x3 + 1)*((-2)*x2 - x3 + 1)^2 + 51*(x3 - 1)^3)/((x3 - 1)*(x2 + x3 - 1)^2);
  1/8*(12*x3 - 1)*(12*(x2 + x3 - 1)^3 - 30*(x2 + x3 - 1)^2*(4*x1 + 2*x2 + 2*x3 - 2) - 30*(2*x2 + 2*x3 - 2)*(2*x1 + x2 + x3 - 1)^2 + 140*(2*x1 + x2 + x3 - 1)^3);
  33/8*(x2 + x3 - 1)^4 - 165/4*(x2 + x3 - 1)^2*(2*x1 + x2 + x3 - 1)^2 + 1/8*(11*x2 + x3 - 1)*(12*(x2 + x3 - 1)^3 - 30*(x2 + x3 - 1)^2*(4*x1 + 2*x2 + 2*x3 - 2) - 30*(2*x2 + 2*x3 - 2)*(2*x1 + x2 + x3 - 1)^2 + 140*(2*x1 + x2 + x3 - 1)^3) + 385/8*(2*x1 + x2 + x3 - 1)^4;
  1/8*(150*x1*(x2 + x3 - 1)^4 - 315*(-x2 - x3 + 1)*((-2)*x1 - x2 - x3 + 1)^4 + 90*(x2 + x3 - 1)^5 - 210*(x2 + x3 - 1)^3*((-2)*x1 - x2 - x3 + 1)^2 + 210*(x2 + x3 - 1)^2*((-2)*x1 - x2 - x3 + 1)^3 - 63*((-2)*x1 - x2 - x3 + 1)^5)/(x2 + x3 - 1) - 1/8*(30*x1*(x2 + x3 - 1)^5 + 63*(-x2 - x3 + 1)*((-2)*x1 - x2 - x3 + 1)^5 + 15*(x2 + x3 - 1)^6 + 70*(x2 + x3 - 1)^3*((-2)*x1 - x2 - x3 + 1)^3)/(x2 + x3 - 1)^2;
  0;
  (-285)/8*x3 + 3003/16*(2*x3 - 1)^5 + 2145/8*(2*x3 - 1)^4 + 165/8*(2*x3 - 1)^3 - 165/2*(2*x3 - 1)^2 + 315/16;
  (-(4*(x3 - 1)^2 - 5*(x3 - 1)*(8*x2 + 4*x3 - 4)))*((-88)*x3 + 1001*(2*x3 - 1)^4 + 1716*(2*x3 - 1)^3 + 726*(2*x3 - 1)^2 + 5)/(32*x3 - 32);
  (-(30*(x3 - 1)^3 + 15*(x3 - 1)^2*(8*x2 + 4*x3 - 4) - 210*(x3 - 1)*(2*x2 + x3 - 1)^2))*(150*x3 + 91*(2*x3 - 1)^3 + 156*(2*x3 - 1)^2 - 67)/(16*x3 - 16);
  1/32*(260*x3 + 91*(2*x3 - 1)^2 - 87)*(24*(x3 - 1)^3 - 42*(x3 - 1)^2*(8*x2 + 4*x3 - 4) - 168*(x3 - 1)*(2*x2 + x3 - 1)^2 + 504*(2*x2 + x3 - 1)^3);
  1/16*(14*x3 - 1)*(840*(-x3 + 1)^2*((-2)*x2 - x3 + 1)^3 - 2310*(-x3 + 1)*((-2)*x2 - x3 + 1)^4 + 70*(x3 - 1)^5 + 70*(x3 - 1)^4*(8*x2 + 4*x3 - 4) - 1260*(x3 - 1)^3*((-2)*x2 - x3 + 1)^2)/(x3 - 1);
  1/16*((-135)*(-x3 + 1)^5*(8*x2 + 4*x3 - 4) - 1980*(-x3 + 1)^2*((-2)*x2 - x3 + 1)^4 + 5148*(-x3 + 1)*((-2)*x2 - x3 + 1)^5 - 60*(x3 - 1)^6 + 1080*(x3 - 1)^4*((-2)*x2 - x3 + 1)^2 + 3960*(x3 - 1)^3*((-2)*x2 - x3 + 1)^3)/(x3 - 1);
  (-95)/8*x3 + 1001/16*(2*x3 - 1)^5 + 715/8*(2*x3 - 1)^4 + 55/8*(2*x3 - 1)^3 - 55/2*(2*x3 - 1)^2 + 105/16;
  1/16*(5*x2 + x3 - 1)*((-88)*x3 + 1001*(2*x3 - 1)^4 + 1716*(2*x3 - 1)^3 + 726*(2*x3 - 1)^2 + 5) + 5/16*(2*x1 + x2 + x3 - 1)*((-88)*x3 + 1001*(2*x3 - 1)^4 + 1716*(2*x3 - 1)^3 + 726*(2*x3 - 1)^2 + 5);
  (-(36*(x3 - 1)^2 - 21*(x3 - 1)*(8*x2 + 4*x3 - 4)))*(2*x1 + x2 + x3 - 1)*(150*x3 + 91*(2*x3 - 1)^3 + 156*(2*x3 - 1)^2 - 67)/(8*x3 - 8) - (36*x2*(x3 - 1)^2 + 17*(x3 - 1)^3 - 21*(x3 - 1)*(2*x2 + x3 - 1)^2)*(150*x3 + 91*(2*x3 - 1)^3 + 156*(2*x3 - 1)^2 - 67)/(8*x3 - 8);
  1/8*((-21)*(x3 - 1)*(8*x2 + 4*x3 - 4) + 126*(2*x2 + x3 - 1)^2)*(260*x3 + 91*(2*x3 - 1)^2 - 87)*(2*x1 + x2 + x3 - 1) + 1/8*(260*x3 + 91*(2*x3 - 1)^2 - 87)*(2*(x3 - 1)^3 - 21*(x3 - 1)*(2*x2 + x3 - 1)^2 + 21*(2*x2 + x3 - 1)^3);
  1/8*(14*x3 - 1)*(2*x1 + x2 + x3 - 1)*(88*(x3 - 1)^3 - 18*(x3 - 1)^2*(8*x2 + 4*x3 - 4) - 1080*(x3 - 1)*(2*x2 + x3 - 1)^2 + 1320*(2*x2 + x3 - 1)^3) + 1/8*(14*x3 - 1)*(88*x2*(x3 - 1)^3 + 41*(x3 - 1)^4 - 18*(x3 - 1)^2*(2*x2 + x3 - 1)^2 - 180*(x3 - 1)*(2*x2 + x3 - 1)^3 + 165*(2*x2 + x3 - 1)^4);
  1/32*(2*x1 + x2 + x3 - 1)*(11880*(-x3 + 1)^2*((-2)*x2 - x3 + 1)^3 - 12870*(-x3 + 1)*((-2)*x2 - x3 + 1)^4 - 90*(x3 - 1)^5 + 630*(x3 - 1)^4*(8*x2 + 4*x3 - 4) - 1980*(x3 - 1)^3*((-2)*x2 - x3 + 1)^2)/(x3 - 1) + 1/32*((-90)*x2*(x3 - 1)^5 - 70*(-x3 + 1)^6 - 1485*(-x3 + 1)^2*((-2)*x2 - x3 + 1)^4 + 1287*(-x3 + 1)*((-2)*x2 - x3 + 1)^5 + 630*(x3 - 1)^4*((-2)*x2 - x3 + 1)^2 + 330*(x3 - 1)^3*((-2)*x2 - x3 + 1)^3)/(x3 - 1);
  1/32*(12*x1 + 4*x2 + 4*x3 - 4)*((-88)*x3 + 1001*(2*x3 - 1)^4 + 1716*(2*x3 - 1)^3 + 726*(2*x3 - 1)^2 + 5);
  7/4*(-(x2 + x3 - 1)^2 + 3*(2*x1 + x2 + x3 - 1)^2)*(150*x3 + 91*(2*x3 - 1)^3 + 156*(2*x3 - 1)^2 - 67) + 1/4*(7*x2 + x3 - 1)*(12*x1 + 4*x2 + 4*x3 - 4)*(150*x3 + 91*(2*x3 - 1)^3 + 156*(2*x3 - 1)^2 - 67);
  (20*(x3 - 1)^2 - 9*(x3 - 1)*(8*x2 + 4*x3 - 4))*((x2 + x3 - 1)^2 - 3*(2*x1 + x2 + x3 - 1)^2)*(260*x3 + 91*(2*x3 - 1)^2 - 87)/(8*x3 - 8) + (260*x3 + 91*(2*x3 - 1)^2 - 87)*(20*x2*(x3 - 1)^2 + 8*(x3 - 1)^3 - 9*(x3 - 1)*(2*x2 + x3 - 1)^2)*((-12)*x1 - 4*x2 - 4*x3 + 4)/(8*x3 - 8);
  1/16*(14*x3 - 1)*(-(x2 + x3 - 1)^2 + 3*(2*x1 + x2 + x3 - 1)^2)*((-225)*(-x3 + 1)^2*(8*x2 + 4*x3 - 4) - 990*(-x3 + 1)*((-2)*x2 - x3 + 1)^2 + 126*(x3 - 1)^3)/(x3 - 1) + 1/16*(14*x3 - 1)*(12*x1 + 4*x2 + 4*x3 - 4)*(126*x2*(x3 - 1)^3 - 225*(-x3 + 1)^2*((-2)*x2 - x3 + 1)^2 + 165*(-x3 + 1)*((-2)*x2 - x3 + 1)^3 + 68*(x3 - 1)^4)/(x3 - 1);
  1/32*(-(x2 + x3 - 1)^2 + 3*(2*x1 + x2 + x3 - 1)^2)*(200*(x3 - 1)^3 + 330*(x3 - 1)^2*(8*x2 + 4*x3 - 4) - 6600*(x3 - 1)*(2*x2 + x3 - 1)^2 + 5720*(2*x2 + x3 - 1)^3) + 1/32*(12*x1 + 4*x2 + 4*x3 - 4)*(200*x2*(x3 - 1)^3 + 71*(x3 - 1)^4 + 330*(x3 - 1)^2*(2*x2 + x3 - 1)^2 - 1100*(x3 - 1)*(2*x2 + x3 - 1)^3 + 715*(2*x2 + x3 - 1)^4);
  (-(150*x3 + 91*(2*x3 - 1)^3 + 156*(2*x3 - 1)^2 - 67))*(18*x1*(x2 + x3 - 1)^2 + 12*(x2 + x3 - 1)^3 - 15*(x2 + x3 - 1)*(2*x1 + x2 + x3 - 1)^2 - 5*(2*x1 + x2 + x3 - 1)^3)/(4*x2 + 4*x3 - 4) + 4*(6*x1*(x2 + x3 - 1)^3 + 3*(x2 + x3 - 1)^4 - 5*(x2 + x3 - 1)*(2*x1 + x2 + x3 - 1)^3)*(150*x3 + 91*(2*x3 - 1)^3 + 156*(2*x3 - 1)^2 - 67)/(4*x2 + 4*x3 - 4)^2;
  1/8*(9*x2 + x3 - 1)*(260*x3 + 91*(2*x3 - 1)^2 - 87)*(18*x1*(x2 + x3 - 1)^2 + 15*(-x2 - x3 + 1)*(2*x1 + x2 + x3 - 1)^2 + 12*(x2 + x3 - 1)^3 - 5*(2*x1 + x2 + x3 - 1)^3)/(-x2 - x3 + 1) + 9/8*(260*x3 + 91*(2*x3 - 1)^2 - 87)*(6*x1*(x2 + x3 - 1)^3 + 5*(-x2 - x3 + 1)*(2*x1 + x2 + x3 - 1)^3 + 3*(x2 + x3 - 1)^4)/(-x2 - x3 + 1) + 1/8*(9*x2 + x3 - 1)*(260*x3 + 91*(2*x3 - 1)^2 - 87)*(6*x1*(x2 + x3 - 1)^3 + 5*(-x2 - x3 + 1)*(2*x1 + x2 + x3 - 1)^3 + 3*(x2 + x3 - 1)^4)/(-x2 - x3 + 1)^2;
  1/8*(14*x3 - 1)*(55*(-x3 + 1)*(8*x2 + 4*x3 - 4) + 140*(x3 - 1)^2)*(6*x1*(x2 + x3 - 1)^3 + 5*(-x2 - x3 + 1)*(2*x1 + x2 + x3 - 1)^3 + 3*(x2 + x3 - 1)^4)/((x3 - 1)*(x2 + x3 - 1)) + 1/8*(14*x3 - 1)*(140*x2*(x3 - 1)^2 + 55*(-x3 + 1)*((-2)*x2 - x3 + 1)^2 + 51*(x3 - 1)^3)*(18*x1*(x2 + x3 - 1)^2 + 15*(-x2 - x3 + 1)*(2*x1 + x2 + x3 - 1)^2 + 12*(x2 + x3 - 1)^3 - 5*(2*x1 + x2 + x3 - 1)^3)/((x3 - 1)*(x2 + x3 - 1)) - 1/8*(14*x3 - 1)*(6*x1*(x2 + x3 - 1)^3 + 5*(-x2 - x3 + 1)*(2*x1 + x2 + x3 - 1)^3 + 3*(x2 + x3 - 1)^4)*(140*x2*(x3 - 1)^2 + 55*(-x3 + 1)*((-2)*x2 - x3 + 1)^2 + 51*(x3 - 1)^3)/((x3 - 1)*(x2 + x3 - 1)^2);
  (-(6*x1*(x2 + x3 - 1)^3 + 3*(x2 + x3 - 1)^4 - 5*(x2 + x3 - 1)*(2*x1 + x2 + x3 - 1)^3))*(198*(x3 - 1)^2 - 231*(x3 - 1)*(8*x2 + 4*x3 - 4) + 858*(2*x2 + x3 - 1)^2)/(8*x2 + 8*x3 - 8) - (18*x1*(x2 + x3 - 1)^2 + 12*(x2 + x3 - 1)^3 - 15*(x2 + x3 - 1)*(2*x1 + x2 + x3 - 1)^2 - 5*(2*x1 + x2 + x3 - 1)^3)*(198*x2*(x3 - 1)^2 + 92*(x3 - 1)^3 - 231*(x3 - 1)*(2*x2 + x3 - 1)^2 + 143*(2*x2 + x3 - 1)^3)/(8*x2 + 8*x3 - 8) + 8*(6*x1*(x2 + x3 - 1)^3 + 3*(x2 + x3 - 1)^4 - 5*(x2 + x3 - 1)*(2*x1 + x2 + x3 - 1)^3)*(198*x2*(x3 - 1)^2 + 92*(x3 - 1)^3 - 231*(x3 - 1)*(2*x2 + x3 - 1)^2 + 143*(2*x2 + x3 - 1)^3)/(8*x2 + 8*x3 - 8)^2;
  1/32*(260*x3 + 91*(2*x3 - 1)^2 - 87)*(12*(x2 + x3 - 1)^3 - 30*(x2 + x3 - 1)^2*(4*x1 + 2*x2 + 2*x3 - 2) - 30*(2*x2 + 2*x3 - 2)*(2*x1 + x2 + x3 - 1)^2 + 140*(2*x1 + x2 + x3 - 1)^3);
  1/8*(14*x3 - 1)*(11*x2 + x3 - 1)*(12*(x2 + x3 - 1)^3 - 30*(x2 + x3 - 1)^2*(4*x1 + 2*x2 + 2*x3 - 2) - 30*(2*x2 + 2*x3 - 2)*(2*x1 + x2 + x3 - 1)^2 + 140*(2*x1 + x2 + x3 - 1)^3) + 11/8*(14*x3 - 1)*(3*(x2 + x3 - 1)^4 - 30*(x2 + x3 - 1)^2*(2*x1 + x2 + x3 - 1)^2 + 35*(2*x1 + x2 + x3 - 1)^4);
  (-(108*(x3 - 1)^2 - 39*(x3 - 1)*(8*x2 + 4*x3 - 4)))*(3*(x2 + x3 - 1)^4 - 30*(x2 + x3 - 1)^2*(2*x1 + x2 + x3 - 1)^2 + 35*(2*x1 + x2 + x3 - 1)^4)/(16*x3 - 16) - (108*x2*(x3 - 1)^2 + 37*(x3 - 1)^3 - 39*(x3 - 1)*(2*x2 + x3 - 1)^2)*(12*(x2 + x3 - 1)^3 - 30*(x2 + x3 - 1)^2*(4*x1 + 2*x2 + 2*x3 - 2) - 30*(2*x2 + 2*x3 - 2)*(2*x1 + x2 + x3 - 1)^2 + 140*(2*x1 + x2 + x3 - 1)^3)/(16*x3 - 16);
  1/8*(14*x3 - 1)*(150*x1*(x2 + x3 - 1)^4 - 315*(-x2 - x3 + 1)*((-2)*x1 - x2 - x3 + 1)^4 + 90*(x2 + x3 - 1)^5 - 210*(x2 + x3 - 1)^3*((-2)*x1 - x2 - x3 + 1)^2 + 210*(x2 + x3 - 1)^2*((-2)*x1 - x2 - x3 + 1)^3 - 63*((-2)*x1 - x2 - x3 + 1)^5)/(x2 + x3 - 1) - 1/8*(14*x3 - 1)*(30*x1*(x2 + x3 - 1)^5 + 63*(-x2 - x3 + 1)*((-2)*x1 - x2 - x3 + 1)^5 + 15*(x2 + x3 - 1)^6 + 70*(x2 + x3 - 1)^3*((-2)*x1 - x2 - x3 + 1)^3)/(x2 + x3 - 1)^2;
  1/8*(13*x2 + x3 - 1)*(150*x1*(x2 + x3 - 1)^4 - 315*(-x2 - x3 + 1)*((-2)*x1 - x2 - x3 + 1)^4 + 90*(x2 + x3 - 1)^5 - 210*(x2 + x3 - 1)^3*((-2)*x1 - x2 - x3 + 1)^2 + 210*(x2 + x3 - 1)^2*((-2)*x1 - x2 - x3 + 1)^3 - 63*((-2)*x1 - x2 - x3 + 1)^5)/(x2 + x3 - 1) + 13/8*(30*x1*(x2 + x3 - 1)^5 + 63*(-x2 - x3 + 1)*((-2)*x1 - x2 - x3 + 1)^5 + 15*(x2 + x3 - 1)^6 + 70*(x2 + x3 - 1)^3*((-2)*x1 - x2 - x3 + 1)^3)/(x2 + x3 - 1) - 1/8*(13*x2 + x3 - 1)*(30*x1*(x2 + x3 - 1)^5 + 63*(-x2 - x3 + 1)*((-2)*x1 - x2 - x3 + 1)^5 + 15*(x2 + x3 - 1)^6 + 70*(x2 + x3 - 1)^3*((-2)*x1 - x2 - x3 + 1)^3)/(x2 + x3 - 1)^2;
  (-15)/8*(x2 + x3 - 1)^5 + 105/16*(x2 + x3 - 1)^4*(4*x1 + 2*x2 + 2*x3 - 2) + 105/4*(x2 + x3 - 1)^3*(2*x1 + x2 + x3 - 1)^2 - 315/4*(x2 + x3 - 1)^2*(2*x1 + x2 + x3 - 1)^3 - 315/16*(2*x2 + 2*x3 - 2)*(2*x1 + x2 + x3 - 1)^4 + 693/8*(2*x1 + x2 + x3 - 1)^5;
  0;
  297/8*x3 + 3003/8*(2*x3 - 1)^6 + 9009/16*(2*x3 - 1)^5 - 2145/8*(2*x3 - 1)^3 - 495/8*(2*x3 - 1)^2 - 249/16;
  (-(4*(x3 - 1)^2 - 5*(x3 - 1)*(8*x2 + 4*x3 - 4)))*((-600)*x3 + 2184*(2*x3 - 1)^5 + 4095*(2*x3 - 1)^4 + 1820*(2*x3 - 1)^3 - 390*(2*x3 - 1)^2 + 283)/(32*x3 - 32);
  (-(30*(x3 - 1)^3 + 15*(x3 - 1)^2*(8*x2 + 4*x3 - 4) - 210*(x3 - 1)*(2*x2 + x3 - 1)^2))*(156*x3 + 455*(2*x3 - 1)^4 + 910*(2*x3 - 1)^3 + 546*(2*x3 - 1)^2 - 87)/(32*x3 - 32);
  1/32*(588*x3 + 280*(2*x3 - 1)^3 + 525*(2*x3 - 1)^2 - 249)*(24*(x3 - 1)^3 - 42*(x3 - 1)^2*(8*x2 + 4*x3 - 4) - 168*(x3 - 1)*(2*x2 + x3 - 1)^2 + 504*(2*x2 + x3 - 1)^3);
  1/16*(90*x3 + 30*(2*x3 - 1)^2 - 29)*(840*(-x3 + 1)^2*((-2)*x2 - x3 + 1)^3 - 2310*(-x3 + 1)*((-2)*x2 - x3 + 1)^4 + 70*(x3 - 1)^5 + 70*(x3 - 1)^4*(8*x2 + 4*x3 - 4) - 1260*(x3 - 1)^3*((-2)*x2 - x3 + 1)^2)/(x3 - 1);
  (-(16*x3 - 1))*(60*(x3 - 1)^6 - 135*(x3 - 1)^5*(8*x2 + 4*x3 - 4) - 1080*(x3 - 1)^4*(2*x2 + x3 - 1)^2 + 3960*(x3 - 1)^3*(2*x2 + x3 - 1)^3 + 1980*(x3 - 1)^2*(2*x2 + x3 - 1)^4 - 5148*(x3 - 1)*(2*x2 + x3 - 1)^5)/(16*x3 - 16);
  1/128*((-20790)*(-x3 + 1)^5*(2*x2 + x3 - 1)^2 + 27720*(-x3 + 1)^4*(2*x2 + x3 - 1)^3 - 90090*(-x3 + 1)*(2*x2 + x3 - 1)^6 - 630*(x3 - 1)^7 - 945*(x3 - 1)^6*(8*x2 + 4*x3 - 4) - 90090*(x3 - 1)^3*(2*x2 + x3 - 1)^4 - 36036*(x3 - 1)^2*(2*x2 + x3 - 1)^5)/(x3 - 1);
  99/8*x3 + 1001/8*(2*x3 - 1)^6 + 3003/16*(2*x3 - 1)^5 - 715/8*(2*x3 - 1)^3 - 165/8*(2*x3 - 1)^2 - 83/16;
  1/16*(5*x2 + x3 - 1)*((-600)*x3 + 2184*(2*x3 - 1)^5 + 4095*(2*x3 - 1)^4 + 1820*(2*x3 - 1)^3 - 390*(2*x3 - 1)^2 + 283) + 5/16*(2*x1 + x2 + x3 - 1)*((-600)*x3 + 2184*(2*x3 - 1)^5 + 4095*(2*x3 - 1)^4 + 1820*(2*x3 - 1)^3 - 390*(2*x3 - 1)^2 + 283);
  (-(36*(x3 - 1)^2 - 21*(x3 - 1)*(8*x2 + 4*x3 - 4)))*(2*x1 + x2 + x3 - 1)*(156*x3 + 455*(2*x3 - 1)^4 + 910*(2*x3 - 1)^3 + 546*(2*x3 - 1)^2 - 87)/(16*x3 - 16) - (36*x2*(x3 - 1)^2 + 17*(x3 - 1)^3 - 21*(x3 - 1)*(2*x2 + x3 - 1)^2)*(156*x3 + 455*(2*x3 - 1)^4 + 910*(2*x3 - 1)^3 + 546*(2*x3 - 1)^2 - 87)/(16*x3 - 16);
  1/8*((-21)*(x3 - 1)*(8*x2 + 4*x3 - 4) + 126*(2*x2 + x3 - 1)^2)*(2*x1 + x2 + x3 - 1)*(588*x3 + 280*(2*x3 - 1)^3 + 525*(2*x3 - 1)^2 - 249) + 1/8*(2*(x3 - 1)^3 - 21*(x3 - 1)*(2*x2 + x3 - 1)^2 + 21*(2*x2 + x3 - 1)^3)*(588*x3 + 280*(2*x3 - 1)^3 + 525*(2*x3 - 1)^2 - 249);
  1/8*(90*x3 + 30*(2*x3 - 1)^2 - 29)*(2*x1 + x2 + x3 - 1)*(88*(x3 - 1)^3 - 18*(x3 - 1)^2*(8*x2 + 4*x3 - 4) - 1080*(x3 - 1)*(2*x2 + x3 - 1)^2 + 1320*(2*x2 + x3 - 1)^3) + 1/8*(90*x3 + 30*(2*x3 - 1)^2 - 29)*(88*x2*(x3 - 1)^3 + 41*(x3 - 1)^4 - 18*(x3 - 1)^2*(2*x2 + x3 - 1)^2 - 180*(x3 - 1)*(2*x2 + x3 - 1)^3 + 165*(2*x2 + x3 - 1)^4);
  1/32*(16*x3 - 1)*(2*x1 + x2 + x3 - 1)*(11880*(-x3 + 1)^2*((-2)*x2 - x3 + 1)^3 - 12870*(-x3 + 1)*((-2)*x2 - x3 + 1)^4 - 90*(x3 - 1)^5 + 630*(x3 - 1)^4*(8*x2 + 4*x3 - 4) - 1980*(x3 - 1)^3*((-2)*x2 - x3 + 1)^2)/(x3 - 1) + 1/32*(16*x3 - 1)*((-90)*x2*(x3 - 1)^5 - 70*(-x3 + 1)^6 - 1485*(-x3 + 1)^2*((-2)*x2 - x3 + 1)^4 + 1287*(-x3 + 1)*((-2)*x2 - x3 + 1)^5 + 630*(x3 - 1)^4*((-2)*x2 - x3 + 1)^2 + 330*(x3 - 1)^3*((-2)*x2 - x3 + 1)^3)/(x3 - 1);
  (-(2*x1 + x2 + x3 - 1))*(780*(x3 - 1)^6 + 165*(x3 - 1)^5*(8*x2 + 4*x3 - 4) - 22440*(x3 - 1)^4*(2*x2 + x3 - 1)^2 + 17160*(x3 - 1)^3*(2*x2 + x3 - 1)^3 + 60060*(x3 - 1)^2*(2*x2 + x3 - 1)^4 - 60060*(x3 - 1)*(2*x2 + x3 - 1)^5)/(64*x3 - 64) - (780*x2*(x3 - 1)^6 + 365*(x3 - 1)^7 + 165*(x3 - 1)^5*(2*x2 + x3 - 1)^2 - 3740*(x3 - 1)^4*(2*x2 + x3 - 1)^3 + 2145*(x3 - 1)^3*(2*x2 + x3 - 1)^4 + 6006*(x3 - 1)^2*(2*x2 + x3 - 1)^5 - 5005*(x3 - 1)*(2*x2 + x3 - 1)^6)/(64*x3 - 64);
  1/32*(12*x1 + 4*x2 + 4*x3 - 4)*((-600)*x3 + 2184*(2*x3 - 1)^5 + 4095*(2*x3 - 1)^4 + 1820*(2*x3 - 1)^3 - 390*(2*x3 - 1)^2 + 283);
  7/8*(-(x2 + x3 - 1)^2 + 3*(2*x1 + x2 + x3 - 1)^2)*(156*x3 + 455*(2*x3 - 1)^4 + 910*(2*x3 - 1)^3 + 546*(2*x3 - 1)^2 - 87) + 1/8*(7*x2 + x3 - 1)*(12*x1 + 4*x2 + 4*x3 - 4)*(156*x3 + 455*(2*x3 - 1)^4 + 910*(2*x3 - 1)^3 + 546*(2*x3 - 1)^2 - 87);
  (20*(x3 - 1)^2 - 9*(x3 - 1)*(8*x2 + 4*x3 - 4))*((x2 + x3 - 1)^2 - 3*(2*x1 + x2 + x3 - 1)^2)*(588*x3 + 280*(2*x3 - 1)^3 + 525*(2*x3 - 1)^2 - 249)/(8*x3 - 8) + (20*x2*(x3 - 1)^2 + 8*(x3 - 1)^3 - 9*(x3 - 1)*(2*x2 + x3 - 1)^2)*((-12)*x1 - 4*x2 - 4*x3 + 4)*(588*x3 + 280*(2*x3 - 1)^3 + 525*(2*x3 - 1)^2 - 249)/(8*x3 - 8);
  1/16*(-(x2 + x3 - 1)^2 + 3*(2*x1 + x2 + x3 - 1)^2)*(90*x3 + 30*(2*x3 - 1)^2 - 29)*((-225)*(-x3 + 1)^2*(8*x2 + 4*x3 - 4) - 990*(-x3 + 1)*((-2)*x2 - x3 + 1)^2 + 126*(x3 - 1)^3)/(x3 - 1) + 1/16*(90*x3 + 30*(2*x3 - 1)^2 - 29)*(12*x1 + 4*x2 + 4*x3 - 4)*(126*x2*(x3 - 1)^3 - 225*(-x3 + 1)^2*((-2)*x2 - x3 + 1)^2 + 165*(-x3 + 1)*((-2)*x2 - x3 + 1)^3 + 68*(x3 - 1)^4)/(x3 - 1);
  1/32*(16*x3 - 1)*(-(x2 + x3 - 1)^2 + 3*(2*x1 + x2 + x3 - 1)^2)*(200*(x3 - 1)^3 + 330*(x3 - 1)^2*(8*x2 + 4*x3 - 4) - 6600*(x3 - 1)*(2*x2 + x3 - 1)^2 + 5720*(2*x2 + x3 - 1)^3) + 1/32*(16*x3 - 1)*(12*x1 + 4*x2 + 4*x3 - 4)*(200*x2*(x3 - 1)^3 + 71*(x3 - 1)^4 + 330*(x3 - 1)^2*(2*x2 + x3 - 1)^2 - 1100*(x3 - 1)*(2*x2 + x3 - 1)^3 + 715*(2*x2 + x3 - 1)^4);
  ((x2 + x3 - 1)^2 - 3*(2*x1 + x2 + x3 - 1)^2)*(770*(x3 - 1)^5 - 990*(x3 - 1)^4*(8*x2 + 4*x3 - 4) - 8580*(x3 - 1)^3*(2*x2 + x3 - 1)^2 + 40040*(x3 - 1)^2*(2*x2 + x3 - 1)^3 - 30030*(x3 - 1)*(2*x2 + x3 - 1)^4)/(64*x3 - 64) + ((-12)*x1 - 4*x2 - 4*x3 + 4)*(770*x2*(x3 - 1)^5 + 386*(x3 - 1)^6 - 990*(x3 - 1)^4*(2*x2 + x3 - 1)^2 - 1430*(x3 - 1)^3*(2*x2 + x3 - 1)^3 + 5005*(x3 - 1)^2*(2*x2 + x3 - 1)^4 - 3003*(x3 - 1)*(2*x2 + x3 - 1)^5)/(64*x3 - 64);
  (-(18*x1*(x2 + x3 - 1)^2 + 12*(x2 + x3 - 1)^3 - 15*(x2 + x3 - 1)*(2*x1 + x2 + x3 - 1)^2 - 5*(2*x1 + x2 + x3 - 1)^3))*(156*x3 + 455*(2*x3 - 1)^4 + 910*(2*x3 - 1)^3 + 546*(2*x3 - 1)^2 - 87)/(8*x2 + 8*x3 - 8) + 8*(6*x1*(x2 + x3 - 1)^3 + 3*(x2 + x3 - 1)^4 - 5*(x2 + x3 - 1)*(2*x1 + x2 + x3 - 1)^3)*(156*x3 + 455*(2*x3 - 1)^4 + 910*(2*x3 - 1)^3 + 546*(2*x3 - 1)^2 - 87)/(8*x2 + 8*x3 - 8)^2;
  1/8*(9*x2 + x3 - 1)*(588*x3 + 280*(2*x3 - 1)^3 + 525*(2*x3 - 1)^2 - 249)*(18*x1*(x2 + x3 - 1)^2 + 15*(-x2 - x3 + 1)*(2*x1 + x2 + x3 - 1)^2 + 12*(x2 + x3 - 1)^3 - 5*(2*x1 + x2 + x3 - 1)^3)/(-x2 - x3 + 1) + 9/8*(6*x1*(x2 + x3 - 1)^3 + 5*(-x2 - x3 + 1)*(2*x1 + x2 + x3 - 1)^3 + 3*(x2 + x3 - 1)^4)*(588*x3 + 280*(2*x3 - 1)^3 + 525*(2*x3 - 1)^2 - 249)/(-x2 - x3 + 1) + 1/8*(9*x2 + x3 - 1)*(6*x1*(x2 + x3 - 1)^3 + 5*(-x2 - x3 + 1)*(2*x1 + x2 + x3 - 1)^3 + 3*(x2 + x3 - 1)^4)*(588*x3 + 280*(2*x3 - 1)^3 + 525*(2*x3 - 1)^2 - 249)/(-x2 - x3 + 1)^2;
  1/8*(55*(-x3 + 1)*(8*x2 + 4*x3 - 4) + 140*(x3 - 1)^2)*(90*x3 + 30*(2*x3 - 1)^2 - 29)*(6*x1*(x2 + x3 - 1)^3 + 5*(-x2 - x3 + 1)*(2*x1 + x2 + x3 - 1)^3 + 3*(x2 + x3 - 1)^4)/((x3 - 1)*(x2 + x3 - 1)) + 1/8*(90*x3 + 30*(2*x3 - 1)^2 - 29)*(140*x2*(x3 - 1)^2 + 55*(-x3 + 1)*((-2)*x2 - x3 + 1)^2 + 51*(x3 - 1)^3)*(18*x1*(x2 + x3 - 1)^2 + 15*(-x2 - x3 + 1)*(2*x1 + x2 + x3 - 1)^2 + 12*(x2 + x3 - 1)^3 - 5*(2*x1 + x2 + x3 - 1)^3)/((x3 - 1)*(x2 + x3 - 1)) - 1/8*(90*x3 + 30*(2*x3 - 1)^2 - 29)*(6*x1*(x2 + x3 - 1)^3 + 5*(-x2 - x3 + 1)*(2*x1 + x2 + x3 - 1)^3 + 3*(x2 + x3 - 1)^4)*(140*x2*(x3 - 1)^2 + 55*(-x3 + 1)*((-2)*x2 - x3 + 1)^2 + 51*(x3 - 1)^3)/((x3 - 1)*(x2 + x3 - 1)^2);
  (-(16*x3 - 1))*(6*x1*(x2 + x3 - 1)^3 + 3*(x2 + x3 - 1)^4 - 5*(x2 + x3 - 1)*(2*x1 + x2 + x3 - 1)^3)*(198*(x3 - 1)^2 - 231*(x3 - 1)*(8*x2 + 4*x3 - 4) + 858*(2*x2 + x3 - 1)^2)/(8*x2 + 8*x3 - 8) - (16*x3 - 1)*(18*x1*(x2 + x3 - 1)^2 + 12*(x2 + x3 - 1)^3 - 15*(x2 + x3 - 1)*(2*x1 + x2 + x3 - 1)^2 - 5*(2*x1 + x2 + x3 - 1)^3)*(198*x2*(x3 - 1)^2 + 92*(x3 - 1)^3 - 231*(x3 - 1)*(2*x2 + x3 - 1)^2 + 143*(2*x2 + x3 - 1)^3)/(8*x2 + 8*x3 - 8) + 8*(16*x3 - 1)*(6*x1*(x2 + x3 - 1)^3 + 3*(x2 + x3 - 1)^4 - 5*(x2 + x3 - 1)*(2*x1 + x2 + x3 - 1)^3)*(198*x2*(x3 - 1)^2 + 92*(x3 - 1)^3 - 231*(x3 - 1)*(2*x2 + x3 - 1)^2 + 143*(2*x2 + x3 - 1)^3)/(8*x2 + 8*x3 - 8)^2;
  (6*x1*(x2 + x3 - 1)^3 + 3*(x2 + x3 - 1)^4 - 5*(x2 + x3 - 1)*(2*x1 + x2 + x3 - 1)^3)*(168*(x3 - 1)^3 - 1326*(x3 - 1)^2*(8*x2 + 4*x3 - 4) + 15288*(x3 - 1)*(2*x2 + x3 - 1)^2 - 10920*(2*x2 + x3 - 1)^3)/(32*x2 + 32*x3 - 32) + (18*x1*(x2 + x3 - 1)^2 + 12*(x2 + x3 - 1)^3 - 15*(x2 + x3 - 1)*(2*x1 + x2 + x3 - 1)^2 - 5*(2*x1 + x2 + x3 - 1)^3)*(168*x2*(x3 - 1)^3 + 127*(x3 - 1)^4 - 1326*(x3 - 1)^2*(2*x2 + x3 - 1)^2 + 2548*(x3 - 1)*(2*x2 + x3 - 1)^3 - 1365*(2*x2 + x3 - 1)^4)/(32*x2 + 32*x3 - 32) - 32*(6*x1*(x2 + x3 - 1)^3 + 3*(x2 + x3 - 1)^4 - 5*(x2 + x3 - 1)*(2*x1 + x2 + x3 - 1)^3)*(168*x2*(x3 - 1)^3 + 127*(x3 - 1)^4 - 1326*(x3 - 1)^2*(2*x2 + x3 - 1)^2 + 2548*(x3 - 1)*(2*x2 + x3 - 1)^3 - 1365*(2*x2 + x3 - 1)^4)/(32*x2 + 32*x3 - 32)^2;
  1/32*(588*x3 + 280*(2*x3 - 1)^3 + 525*(2*x3 - 1)^2 - 249)*(12*(x2 + x3 - 1)^3 - 30*(x2 + x3 - 1)^2*(4*x1 + 2*x2 + 2*x3 - 2) - 30*(2*x2 + 2*x3 - 2)*(2*x1 + x2 + x3 - 1)^2 + 140*(2*x1 + x2 + x3 - 1)^3);
  1/8*(11*x2 + x3 - 1)*(90*x3 + 30*(2*x3 - 1)^2 - 29)*(12*(x2 + x3 - 1)^3 - 30*(x2 + x3 - 1)^2*(4*x1 + 2*x2 + 2*x3 - 2) - 30*(2*x2 + 2*x3 - 2)*(2*x1 + x2 + x3 - 1)^2 + 140*(2*x1 + x2 + x3 - 1)^3) + 11/8*(90*x3 + 30*(2*x3 - 1)^2 - 29)*(3*(x2 + x3 - 1)^4 - 30*(x2 + x3 - 1)^2*(2*x1 + x2 + x3 - 1)^2 + 35*(2*x1 + x2 + x3 - 1)^4);
  (-(16*x3 - 1))*(108*(x3 - 1)^2 - 39*(x3 - 1)*(8*x2 + 4*x3 - 4))*(3*(x2 + x3 - 1)^4 - 30*(x2 + x3 - 1)^2*(2*x1 + x2 + x3 - 1)^2 + 35*(2*x1 + x2 + x3 - 1)^4)/(16*x3 - 16) - (16*x3 - 1)*(108*x2*(x3 - 1)^2 + 37*(x3 - 1)^3 - 39*(x3 - 1)*(2*x2 + x3 - 1)^2)*(12*(x2 + x3 - 1)^3 - 30*(x2 + x3 - 1)^2*(4*x1 + 2*x2 + 2*x3 - 2) - 30*(2*x2 + 2*x3 - 2)*(2*x1 + x2 + x3 - 1)^2 + 140*(2*x1 + x2 + x3 - 1)^3)/(16*x3 - 16);
  1/64*((-819)*(-x3 + 1)^2*(8*x2 + 4*x3 - 4) - 2730*(-x3 + 1)*((-2)*x2 - x3 + 1)^2 + 858*(x3 - 1)^3)*(3*(x2 + x3 - 1)^4 - 30*(x2 + x3 - 1)^2*(2*x1 + x2 + x3 - 1)^2 + 35*(2*x1 + x2 + x3 - 1)^4)/(x3 - 1) + 1/64*(858*x2*(x3 - 1)^3 - 819*(-x3 + 1)^2*((-2)*x2 - x3 + 1)^2 + 455*(-x3 + 1)*((-2)*x2 - x3 + 1)^3 + 372*(x3 - 1)^4)*(12*(x2 + x3 - 1)^3 - 30*(x2 + x3 - 1)^2*(4*x1 + 2*x2 + 2*x3 - 2) - 30*(2*x2 + 2*x3 - 2)*(2*x1 + x2 + x3 - 1)^2 + 140*(2*x1 + x2 + x3 - 1)^3)/(x3 - 1);
  1/8*(90*x3 + 30*(2*x3 - 1)^2 - 29)*(150*x1*(x2 + x3 - 1)^4 - 315*(-x2 - x3 + 1)*((-2)*x1 - x2 - x3 + 1)^4 + 90*(x2 + x3 - 1)^5 - 210*(x2 + x3 - 1)^3*((-2)*x1 - x2 - x3 + 1)^2 + 210*(x2 + x3 - 1)^2*((-2)*x1 - x2 - x3 + 1)^3 - 63*((-2)*x1 - x2 - x3 + 1)^5)/(x2 + x3 - 1) - 1/8*(90*x3 + 30*(2*x3 - 1)^2 - 29)*(30*x1*(x2 + x3 - 1)^5 + 63*(-x2 - x3 + 1)*((-2)*x1 - x2 - x3 + 1)^5 + 15*(x2 + x3 - 1)^6 + 70*(x2 + x3 - 1)^3*((-2)*x1 - x2 - x3 + 1)^3)/(x2 + x3 - 1)^2;
  1/8*(16*x3 - 1)*(13*x2 + x3 - 1)*(150*x1*(x2 + x3 - 1)^4 - 315*(-x2 - x3 + 1)*((-2)*x1 - x2 - x3 + 1)^4 + 90*(x2 + x3 - 1)^5 - 210*(x2 + x3 - 1)^3*((-2)*x1 - x2 - x3 + 1)^2 + 210*(x2 + x3 - 1)^2*((-2)*x1 - x2 - x3 + 1)^3 - 63*((-2)*x1 - x2 - x3 + 1)^5)/(x2 + x3 - 1) + 13/8*(16*x3 - 1)*(30*x1*(x2 + x3 - 1)^5 + 63*(-x2 - x3 + 1)*((-2)*x1 - x2 - x3 + 1)^5 + 15*(x2 + x3 - 1)^6 + 70*(x2 + x3 - 1)^3*((-2)*x1 - x2 - x3 + 1)^3)/(x2 + x3 - 1) - 1/8*(16*x3 - 1)*(13*x2 + x3 - 1)*(30*x1*(x2 + x3 - 1)^5 + 63*(-x2 - x3 + 1)*((-2)*x1 - x2 - x3 + 1)^5 + 15*(x2 + x3 - 1)^6 + 70*(x2 + x3 - 1)^3*((-2)*x1 - x2 - x3 + 1)^3)/(x2 + x3 - 1)^2;
  (-1)/32*(308*(x3 - 1)^2 - 105*(x3 - 1)*(8*x2 + 4*x3 - 4))*(30*x1*(x2 + x3 - 1)^5 + 15*(x2 + x3 - 1)^6 - 70*(x2 + x3 - 1)^3*(2*x1 + x2 + x3 - 1)^3 + 63*(x2 + x3 - 1)*(2*x1 + x2 + x3 - 1)^5)/((x3 - 1)*(x2 + x3 - 1)) - 1/32*(308*x2*(x3 - 1)^2 + 101*(x3 - 1)^3 - 105*(x3 - 1)*(2*x2 + x3 - 1)^2)*(150*x1*(x2 + x3 - 1)^4 + 90*(x2 + x3 - 1)^5 - 210*(x2 + x3 - 1)^3*(2*x1 + x2 + x3 - 1)^2 - 210*(x2 + x3 - 1)^2*(2*x1 + x2 + x3 - 1)^3 + 315*(x2 + x3 - 1)*(2*x1 + x2 + x3 - 1)^4 + 63*(2*x1 + x2 + x3 - 1)^5)/((x3 - 1)*(x2 + x3 - 1)) + 1/32*(308*x2*(x3 - 1)^2 + 101*(x3 - 1)^3 - 105*(x3 - 1)*(2*x2 + x3 - 1)^2)*(30*x1*(x2 + x3 - 1)^5 + 15*(x2 + x3 - 1)^6 - 70*(x2 + x3 - 1)^3*(2*x1 + x2 + x3 - 1)^3 + 63*(x2 + x3 - 1)*(2*x1 + x2 + x3 - 1)^5)/((x3 - 1)*(x2 + x3 - 1)^2);
  1/16*(16*x3 - 1)*((-30)*(x2 + x3 - 1)^5 + 105*(x2 + x3 - 1)^4*(4*x1 + 2*x2 + 2*x3 - 2) + 420*(x2 + x3 - 1)^3*(2*x1 + x2 + x3 - 1)^2 - 1260*(x2 + x3 - 1)^2*(2*x1 + x2 + x3 - 1)^3 - 315*(2*x2 + 2*x3 - 2)*(2*x1 + x2 + x3 - 1)^4 + 1386*(2*x1 + x2 + x3 - 1)^5);
  (-75)/16*(x2 + x3 - 1)^6 + 1575/16*(x2 + x3 - 1)^4*(2*x1 + x2 + x3 - 1)^2 - 4725/16*(x2 + x3 - 1)^2*(2*x1 + x2 + x3 - 1)^4 + 1/16*(15*x2 + x3 - 1)*((-30)*(x2 + x3 - 1)^5 + 105*(x2 + x3 - 1)^4*(4*x1 + 2*x2 + 2*x3 - 2) + 420*(x2 + x3 - 1)^3*(2*x1 + x2 + x3 - 1)^2 - 1260*(x2 + x3 - 1)^2*(2*x1 + x2 + x3 - 1)^3 - 315*(2*x2 + 2*x3 - 2)*(2*x1 + x2 + x3 - 1)^4 + 1386*(2*x1 + x2 + x3 - 1)^5) + 3465/16*(2*x1 + x2 + x3 - 1)^6;
  (-(490*x1*(x2 + x3 - 1)^6 + 280*(x2 + x3 - 1)^7 - 945*(x2 + x3 - 1)^5*(2*x1 + x2 + x3 - 1)^2 - 1575*(x2 + x3 - 1)^4*(2*x1 + x2 + x3 - 1)^3 + 3465*(x2 + x3 - 1)^3*(2*x1 + x2 + x3 - 1)^4 + 2079*(x2 + x3 - 1)^2*(2*x1 + x2 + x3 - 1)^5 - 3003*(x2 + x3 - 1)*(2*x1 + x2 + x3 - 1)^6 - 429*(2*x1 + x2 + x3 - 1)^7))/(16*x2 + 16*x3 - 16) + 16*(70*x1*(x2 + x3 - 1)^7 + 35*(x2 + x3 - 1)^8 - 315*(x2 + x3 - 1)^5*(2*x1 + x2 + x3 - 1)^3 + 693*(x2 + x3 - 1)^3*(2*x1 + x2 + x3 - 1)^5 - 429*(x2 + x3 - 1)*(2*x1 + x2 + x3 - 1)^7)/(16*x2 + 16*x3 - 16)^2;
  0;
  189/4*x3 + 5967/8*(2*x3 - 1)^7 + 4641/4*(2*x3 - 1)^6 - 819/8*(2*x3 - 1)^5 - 12285/16*(2*x3 - 1)^4 - 1365/8*(2*x3 - 1)^3 + 819/8*(2*x3 - 1)^2 - 399/16;
  (-(4*(x3 - 1)^2 - 5*(x3 - 1)*(8*x2 + 4*x3 - 4)))*((-156)*x3 + 4641*(2*x3 - 1)^6 + 9282*(2*x3 - 1)^5 + 4095*(2*x3 - 1)^4 - 1820*(2*x3 - 1)^3 - 1365*(2*x3 - 1)^2 + 107)/(32*x3 - 32);
  (-(30*(x3 - 1)^3 + 15*(x3 - 1)^2*(8*x2 + 4*x3 - 4) - 210*(x3 - 1)*(2*x2 + x3 - 1)^2))*((-210)*x3 + 1071*(2*x3 - 1)^5 + 2380*(2*x3 - 1)^4 + 1610*(2*x3 - 1)^3 + 210*(2*x3 - 1)^2 + 87)/(32*x3 - 32);
  1/32*(24*(x3 - 1)^3 - 42*(x3 - 1)^2*(8*x2 + 4*x3 - 4) - 168*(x3 - 1)*(2*x2 + x3 - 1)^2 + 504*(2*x2 + x3 - 1)^3)*(600*x3 + 765*(2*x3 - 1)^4 + 1700*(2*x3 - 1)^3 + 1230*(2*x3 - 1)^2 - 291);
  1/16*(252*x3 + 102*(2*x3 - 1)^3 + 204*(2*x3 - 1)^2 - 103)*(840*(-x3 + 1)^2*((-2)*x2 - x3 + 1)^3 - 2310*(-x3 + 1)*((-2)*x2 - x3 + 1)^4 + 70*(x3 - 1)^5 + 70*(x3 - 1)^4*(8*x2 + 4*x3 - 4) - 1260*(x3 - 1)^3*((-2)*x2 - x3 + 1)^2)/(x3 - 1);
  (-(476*x3 + 153*(2*x3 - 1)^2 - 149))*(60*(x3 - 1)^6 - 135*(x3 - 1)^5*(8*x2 + 4*x3 - 4) - 1080*(x3 - 1)^4*(2*x2 + x3 - 1)^2 + 3960*(x3 - 1)^3*(2*x2 + x3 - 1)^3 + 1980*(x3 - 1)^2*(2*x2 + x3 - 1)^4 - 5148*(x3 - 1)*(2*x2 + x3 - 1)^5)/(64*x3 - 64);
  (-(18*x3 - 1))*(630*(x3 - 1)^7 + 945*(x3 - 1)^6*(8*x2 + 4*x3 - 4) - 20790*(x3 - 1)^5*(2*x2 + x3 - 1)^2 - 27720*(x3 - 1)^4*(2*x2 + x3 - 1)^3 + 90090*(x3 - 1)^3*(2*x2 + x3 - 1)^4 + 36036*(x3 - 1)^2*(2*x2 + x3 - 1)^5 - 90090*(x3 - 1)*(2*x2 + x3 - 1)^6)/(128*x3 - 128);
  385/32*(-x3 + 1)*(x3 - 1)^5*(8*x2 + 4*x3 - 4) + 1155/8*(-x3 + 1)*(x3 - 1)^4*(2*x2 + x3 - 1)^2 + 15015/8*(-x3 + 1)*(x3 - 1)*(2*x2 + x3 - 1)^5 + 5005/8*(-x3 + 1)*(2*x2 + x3 - 1)^6 + 35/8*(x3 - 1)^7 + 5005/8*(x3 - 1)^4*(2*x2 + x3 - 1)^3 + 5005/8*(x3 - 1)^3*(2*x2 + x3 - 1)^4 + 12155/8*(2*x2 + x3 - 1)^7;
  63/4*x3 + 1989/8*(2*x3 - 1)^7 + 1547/4*(2*x3 - 1)^6 - 273/8*(2*x3 - 1)^5 - 4095/16*(2*x3 - 1)^4 - 455/8*(2*x3 - 1)^3 + 273/8*(2*x3 - 1)^2 - 133/16;
  1/16*(5*x2 + x3 - 1)*((-156)*x3 + 4641*(2*x3 - 1)^6 + 9282*(2*x3 - 1)^5 + 4095*(2*x3 - 1)^4 - 1820*(2*x3 - 1)^3 - 1365*(2*x3 - 1)^2 + 107) + 5/16*(2*x1 + x2 + x3 - 1)*((-156)*x3 + 4641*(2*x3 - 1)^6 + 9282*(2*x3 - 1)^5 + 4095*(2*x3 - 1)^4 - 1820*(2*x3 - 1)^3 - 1365*(2*x3 - 1)^2 + 107);
  (-(36*(x3 - 1)^2 - 21*(x3 - 1)*(8*x2 + 4*x3 - 4)))*(2*x1 + x2 + x3 - 1)*((-210)*x3 + 1071*(2*x3 - 1)^5 + 2380*(2*x3 - 1)^4 + 1610*(2*x3 - 1)^3 + 210*(2*x3 - 1)^2 + 87)/(16*x3 - 16) - (36*x2*(x3 - 1)^2 + 17*(x3 - 1)^3 - 21*(x3 - 1)*(2*x2 + x3 - 1)^2)*((-210)*x3 + 1071*(2*x3 - 1)^5 + 2380*(2*x3 - 1)^4 + 1610*(2*x3 - 1)^3 + 210*(2*x3 - 1)^2 + 87)/(16*x3 - 16);
  1/8*((-21)*(x3 - 1)*(8*x2 + 4*x3 - 4) + 126*(2*x2 + x3 - 1)^2)*(2*x1 + x2 + x3 - 1)*(600*x3 + 765*(2*x3 - 1)^4 + 1700*(2*x3 - 1)^3 + 1230*(2*x3 - 1)^2 - 291) + 1/8*(2*(x3 - 1)^3 - 21*(x3 - 1)*(2*x2 + x3 - 1)^2 + 21*(2*x2 + x3 - 1)^3)*(600*x3 + 765*(2*x3 - 1)^4 + 1700*(2*x3 - 1)^3 + 1230*(2*x3 - 1)^2 - 291);
  1/8*(2*x1 + x2 + x3 - 1)*(252*x3 + 102*(2*x3 - 1)^3 + 204*(2*x3 - 1)^2 - 103)*(88*(x3 - 1)^3 - 18*(x3 - 1)^2*(8*x2 + 4*x3 - 4) - 1080*(x3 - 1)*(2*x2 + x3 - 1)^2 + 1320*(2*x2 + x3 - 1)^3) + 1/8*(252*x3 + 102*(2*x3 - 1)^3 + 204*(2*x3 - 1)^2 - 103)*(88*x2*(x3 - 1)^3 + 41*(x3 - 1)^4 - 18*(x3 - 1)^2*(2*x2 + x3 - 1)^2 - 180*(x3 - 1)*(2*x2 + x3 - 1)^3 + 165*(2*x2 + x3 - 1)^4);
  1/128*(476*x3 + 153*(2*x3 - 1)^2 - 149)*(2*x1 + x2 + x3 - 1)*(11880*(-x3 + 1)^2*((-2)*x2 - x3 + 1)^3 - 12870*(-x3 + 1)*((-2)*x2 - x3 + 1)^4 - 90*(x3 - 1)^5 + 630*(x3 - 1)^4*(8*x2 + 4*x3 - 4) - 1980*(x3 - 1)^3*((-2)*x2 - x3 + 1)^2)/(x3 - 1) + 1/128*(476*x3 + 153*(2*x3 - 1)^2 - 149)*((-90)*x2*(x3 - 1)^5 - 70*(-x3 + 1)^6 - 1485*(-x3 + 1)^2*((-2)*x2 - x3 + 1)^4 + 1287*(-x3 + 1)*((-2)*x2 - x3 + 1)^5 + 630*(x3 - 1)^4*((-2)*x2 - x3 + 1)^2 + 330*(x3 - 1)^3*((-2)*x2 - x3 + 1)^3)/(x3 - 1);
  (-(18*x3 - 1))*(2*x1 + x2 + x3 - 1)*(780*(x3 - 1)^6 + 165*(x3 - 1)^5*(8*x2 + 4*x3 - 4) - 22440*(x3 - 1)^4*(2*x2 + x3 - 1)^2 + 17160*(x3 - 1)^3*(2*x2 + x3 - 1)^3 + 60060*(x3 - 1)^2*(2*x2 + x3 - 1)^4 - 60060*(x3 - 1)*(2*x2 + x3 - 1)^5)/(64*x3 - 64) - (18*x3 - 1)*(780*x2*(x3 - 1)^6 + 365*(x3 - 1)^7 + 165*(x3 - 1)^5*(2*x2 + x3 - 1)^2 - 3740*(x3 - 1)^4*(2*x2 + x3 - 1)^3 + 2145*(x3 - 1)^3*(2*x2 + x3 - 1)^4 + 6006*(x3 - 1)^2*(2*x2 + x3 - 1)^5 - 5005*(x3 - 1)*(2*x2 + x3 - 1)^6)/(64*x3 - 64);
  1/32*(2*x1 + x2 + x3 - 1)*((-924)*(-x3 + 1)^6*(8*x2 + 4*x3 - 4) + 72072*(-x3 + 1)^2*((-2)*x2 - x3 + 1)^5 - 68068*(-x3 + 1)*((-2)*x2 - x3 + 1)^6 + 154*(x3 - 1)^7 - 40040*(x3 - 1)^4*((-2)*x2 - x3 + 1)^3 - 30030*(x3 - 1)^3*((-2)*x2 - x3 + 1)^4)/(x3 - 1) + 1/32*(154*x2*(x3 - 1)^7 - 924*(-x3 + 1)^6*((-2)*x2 - x3 + 1)^2 - 6006*(-x3 + 1)^2*((-2)*x2 - x3 + 1)^6 + 4862*(-x3 + 1)*((-2)*x2 - x3 + 1)^7 + 98*(x3 - 1)^8 + 5005*(x3 - 1)^4*((-2)*x2 - x3 + 1)^4 + 3003*(x3 - 1)^3*((-2)*x2 - x3 + 1)^5)/(x3 - 1);
  1/32*(12*x1 + 4*x2 + 4*x3 - 4)*((-156)*x3 + 4641*(2*x3 - 1)^6 + 9282*(2*x3 - 1)^5 + 4095*(2*x3 - 1)^4 - 1820*(2*x3 - 1)^3 - 1365*(2*x3 - 1)^2 + 107);
  7/8*(-(x2 + x3 - 1)^2 + 3*(2*x1 + x2 + x3 - 1)^2)*((-210)*x3 + 1071*(2*x3 - 1)^5 + 2380*(2*x3 - 1)^4 + 1610*(2*x3 - 1)^3 + 210*(2*x3 - 1)^2 + 87) + 1/8*(7*x2 + x3 - 1)*(12*x1 + 4*x2 + 4*x3 - 4)*((-210)*x3 + 1071*(2*x3 - 1)^5 + 2380*(2*x3 - 1)^4 + 1610*(2*x3 - 1)^3 + 210*(2*x3 - 1)^2 + 87);
  (20*(x3 - 1)^2 - 9*(x3 - 1)*(8*x2 + 4*x3 - 4))*((x2 + x3 - 1)^2 - 3*(2*x1 + x2 + x3 - 1)^2)*(600*x3 + 765*(2*x3 - 1)^4 + 1700*(2*x3 - 1)^3 + 1230*(2*x3 - 1)^2 - 291)/(8*x3 - 8) + (20*x2*(x3 - 1)^2 + 8*(x3 - 1)^3 - 9*(x3 - 1)*(2*x2 + x3 - 1)^2)*((-12)*x1 - 4*x2 - 4*x3 + 4)*(600*x3 + 765*(2*x3 - 1)^4 + 1700*(2*x3 - 1)^3 + 1230*(2*x3 - 1)^2 - 291)/(8*x3 - 8);
  1/16*(-(x2 + x3 - 1)^2 + 3*(2*x1 + x2 + x3 - 1)^2)*((-225)*(-x3 + 1)^2*(8*x2 + 4*x3 - 4) - 990*(-x3 + 1)*((-2)*x2 - x3 + 1)^2 + 126*(x3 - 1)^3)*(252*x3 + 102*(2*x3 - 1)^3 + 204*(2*x3 - 1)^2 - 103)/(x3 - 1) + 1/16*(12*x1 + 4*x2 + 4*x3 - 4)*(252*x3 + 102*(2*x3 - 1)^3 + 204*(2*x3 - 1)^2 - 103)*(126*x2*(x3 - 1)^3 - 225*(-x3 + 1)^2*((-2)*x2 - x3 + 1)^2 + 165*(-x3 + 1)*((-2)*x2 - x3 + 1)^3 + 68*(x3 - 1)^4)/(x3 - 1);
  1/128*(-(x2 + x3 - 1)^2 + 3*(2*x1 + x2 + x3 - 1)^2)*(476*x3 + 153*(2*x3 - 1)^2 - 149)*(200*(x3 - 1)^3 + 330*(x3 - 1)^2*(8*x2 + 4*x3 - 4) - 6600*(x3 - 1)*(2*x2 + x3 - 1)^2 + 5720*(2*x2 + x3 - 1)^3) + 1/128*(476*x3 + 153*(2*x3 - 1)^2 - 149)*(12*x1 + 4*x2 + 4*x3 - 4)*(200*x2*(x3 - 1)^3 + 71*(x3 - 1)^4 + 330*(x3 - 1)^2*(2*x2 + x3 - 1)^2 - 1100*(x3 - 1)*(2*x2 + x3 - 1)^3 + 715*(2*x2 + x3 - 1)^4);
  (18*x3 - 1)*((x2 + x3 - 1)^2 - 3*(2*x1 + x2 + x3 - 1)^2)*(770*(x3 - 1)^5 - 990*(x3 - 1)^4*(8*x2 + 4*x3 - 4) - 8580*(x3 - 1)^3*(2*x2 + x3 - 1)^2 + 40040*(x3 - 1)^2*(2*x2 + x3 - 1)^3 - 30030*(x3 - 1)*(2*x2 + x3 - 1)^4)/(64*x3 - 64) + (18*x3 - 1)*((-12)*x1 - 4*x2 - 4*x3 + 4)*(770*x2*(x3 - 1)^5 + 386*(x3 - 1)^6 - 990*(x3 - 1)^4*(2*x2 + x3 - 1)^2 - 1430*(x3 - 1)^3*(2*x2 + x3 - 1)^3 + 5005*(x3 - 1)^2*(2*x2 + x3 - 1)^4 - 3003*(x3 - 1)*(2*x2 + x3 - 1)^5)/(64*x3 - 64);
  1/32*((x2 + x3 - 1)^2 - 3*(2*x1 + x2 + x3 - 1)^2)*(96*(x3 - 1)^5 + 780*(x3 - 1)^4*(8*x2 + 4*x3 - 4) - 10920*(x3 - 1)^3*(2*x2 + x3 - 1)^2 - 10920*(x3 - 1)^2*(2*x2 + x3 - 1)^3 + 54600*(x3 - 1)*(2*x2 + x3 - 1)^4 - 37128*(2*x2 + x3 - 1)^5) + 1/32*((-12)*x1 - 4*x2 - 4*x3 + 4)*(96*x2*(x3 - 1)^5 + 23*(x3 - 1)^6 + 780*(x3 - 1)^4*(2*x2 + x3 - 1)^2 - 1820*(x3 - 1)^3*(2*x2 + x3 - 1)^3 - 1365*(x3 - 1)^2*(2*x2 + x3 - 1)^4 + 5460*(x3 - 1)*(2*x2 + x3 - 1)^5 - 3094*(2*x2 + x3 - 1)^6);
  (-(18*x1*(x2 + x3 - 1)^2 + 12*(x2 + x3 - 1)^3 - 15*(x2 + x3 - 1)*(2*x1 + x2 + x3 - 1)^2 - 5*(2*x1 + x2 + x3 - 1)^3))*((-210)*x3 + 1071*(2*x3 - 1)^5 + 2380*(2*x3 - 1)^4 + 1610*(2*x3 - 1)^3 + 210*(2*x3 - 1)^2 + 87)/(8*x2 + 8*x3 - 8) + 8*(6*x1*(x2 + x3 - 1)^3 + 3*(x2 + x3 - 1)^4 - 5*(x2 + x3 - 1)*(2*x1 + x2 + x3 - 1)^3)*((-210)*x3 + 1071*(2*x3 - 1)^5 + 2380*(2*x3 - 1)^4 + 1610*(2*x3 - 1)^3 + 210*(2*x3 - 1)^2 + 87)/(8*x2 + 8*x3 - 8)^2;
  1/8*(9*x2 + x3 - 1)*(18*x1*(x2 + x3 - 1)^2 + 15*(-x2 - x3 + 1)*(2*x1 + x2 + x3 - 1)^2 + 12*(x2 + x3 - 1)^3 - 5*(2*x1 + x2 + x3 - 1)^3)*(600*x3 + 765*(2*x3 - 1)^4 + 1700*(2*x3 - 1)^3 + 1230*(2*x3 - 1)^2 - 291)/(-x2 - x3 + 1) + 9/8*(6*x1*(x2 + x3 - 1)^3 + 5*(-x2 - x3 + 1)*(2*x1 + x2 + x3 - 1)^3 + 3*(x2 + x3 - 1)^4)*(600*x3 + 765*(2*x3 - 1)^4 + 1700*(2*x3 - 1)^3 + 1230*(2*x3 - 1)^2 - 291)/(-x2 - x3 + 1) + 1/8*(9*x2 + x3 - 1)*(6*x1*(x2 + x3 - 1)^3 + 5*(-x2 - x3 + 1)*(2*x1 + x2 + x3 - 1)^3 + 3*(x2 + x3 - 1)^4)*(600*x3 + 765*(2*x3 - 1)^4 + 1700*(2*x3 - 1)^3 + 1230*(2*x3 - 1)^2 - 291)/(-x2 - x3 + 1)^2;
  1/8*(55*(-x3 + 1)*(8*x2 + 4*x3 - 4) + 140*(x3 - 1)^2)*(6*x1*(x2 + x3 - 1)^3 + 5*(-x2 - x3 + 1)*(2*x1 + x2 + x3 - 1)^3 + 3*(x2 + x3 - 1)^4)*(252*x3 + 102*(2*x3 - 1)^3 + 204*(2*x3 - 1)^2 - 103)/((x3 - 1)*(x2 + x3 - 1)) + 1/8*(140*x2*(x3 - 1)^2 + 55*(-x3 + 1)*((-2)*x2 - x3 + 1)^2 + 51*(x3 - 1)^3)*(252*x3 + 102*(2*x3 - 1)^3 + 204*(2*x3 - 1)^2 - 103)*(18*x1*(x2 + x3 - 1)^2 + 15*(-x2 - x3 + 1)*(2*x1 + x2 + x3 - 1)^2 + 12*(x2 + x3 - 1)^3 - 5*(2*x1 + x2 + x3 - 1)^3)/((x3 - 1)*(x2 + x3 - 1)) - 1/8*(6*x1*(x2 + x3 - 1)^3 + 5*(-x2 - x3 + 1)*(2*x1 + x2 + x3 - 1)^3 + 3*(x2 + x3 - 1)^4)*(140*x2*(x3 - 1)^2 + 55*(-x3 + 1)*((-2)*x2 - x3 + 1)^2 + 51*(x3 - 1)^3)*(252*x3 + 102*(2*x3 - 1)^3 + 204*(2*x3 - 1)^2 - 103)/((x3 - 1)*(x2 + x3 - 1)^2);
  (-(476*x3 + 153*(2*x3 - 1)^2 - 149))*(6*x1*(x2 + x3 - 1)^3 + 3*(x2 + x3 - 1)^4 - 5*(x2 + x3 - 1)*(2*x1 + x2 + x3 - 1)^3)*(198*(x3 - 1)^2 - 231*(x3 - 1)*(8*x2 + 4*x3 - 4) + 858*(2*x2 + x3 - 1)^2)/(32*x2 + 32*x3 - 32) - (476*x3 + 153*(2*x3 - 1)^2 - 149)*(18*x1*(x2 + x3 - 1)^2 + 12*(x2 + x3 - 1)^3 - 15*(x2 + x3 - 1)*(2*x1 + x2 + x3 - 1)^2 - 5*(2*x1 + x2 + x3 - 1)^3)*(198*x2*(x3 - 1)^2 + 92*(x3 - 1)^3 - 231*(x3 - 1)*(2*x2 + x3 - 1)^2 + 143*(2*x2 + x3 - 1)^3)/(32*x2 + 32*x3 - 32) + 32*(476*x3 + 153*(2*x3 - 1)^2 - 149)*(6*x1*(x2 + x3 - 1)^3 + 3*(x2 + x3 - 1)^4 - 5*(x2 + x3 - 1)*(2*x1 + x2 + x3 - 1)^3)*(198*x2*(x3 - 1)^2 + 92*(x3 - 1)^3 - 231*(x3 - 1)*(2*x2 + x3 - 1)^2 + 143*(2*x2 + x3 - 1)^3)/(32*x2 + 32*x3 - 32)^2;
  1/32*(18*x3 - 1)*(6*x1*(x2 + x3 - 1)^3 + 5*(-x2 - x3 + 1)*(2*x1 + x2 + x3 - 1)^3 + 3*(x2 + x3 - 1)^4)*((-168)*(x3 - 1)^3 + 1326*(x3 - 1)^2*(8*x2 + 4*x3 - 4) - 15288*(x3 - 1)*(2*x2 + x3 - 1)^2 + 10920*(2*x2 + x3 - 1)^3)/(-x2 - x3 + 1) + 1/32*(18*x3 - 1)*(18*x1*(x2 + x3 - 1)^2 + 15*(-x2 - x3 + 1)*(2*x1 + x2 + x3 - 1)^2 + 12*(x2 + x3 - 1)^3 - 5*(2*x1 + x2 + x3 - 1)^3)*((-168)*x2*(x3 - 1)^3 - 127*(x3 - 1)^4 + 1326*(x3 - 1)^2*(2*x2 + x3 - 1)^2 - 2548*(x3 - 1)*(2*x2 + x3 - 1)^3 + 1365*(2*x2 + x3 - 1)^4)/(-x2 - x3 + 1) + 1/32*(18*x3 - 1)*(6*x1*(x2 + x3 - 1)^3 + 5*(-x2 - x3 + 1)*(2*x1 + x2 + x3 - 1)^3 + 3*(x2 + x3 - 1)^4)*((-168)*x2*(x3 - 1)^3 - 127*(x3 - 1)^4 + 1326*(x3 - 1)^2*(2*x2 + x3 - 1)^2 - 2548*(x3 - 1)*(2*x2 + x3 - 1)^3 + 1365*(2*x2 + x3 - 1)^4)/(-x2 - x3 + 1)^2;
  1/16*(6*x1*(x2 + x3 - 1)^3 + 5*(-x2 - x3 + 1)*(2*x1 + x2 + x3 - 1)^3 + 3*(x2 + x3 - 1)^4)*(10920*(-x3 + 1)^3*(2*x2 + x3 - 1)^2 + 15470*(-x3 + 1)*(2*x2 + x3 - 1)^4 + 390*(x3 - 1)^5 + 25480*(x3 - 1)^2*(2*x2 + x3 - 1)^3)/((x3 - 1)*(x2 + x3 - 1)) + 1/16*(18*x1*(x2 + x3 - 1)^2 + 15*(-x2 - x3 + 1)*(2*x1 + x2 + x3 - 1)^2 + 12*(x2 + x3 - 1)^3 - 5*(2*x1 + x2 + x3 - 1)^3)*(390*x2*(x3 - 1)^5 + 1820*(-x3 + 1)^3*(2*x2 + x3 - 1)^3 + 1547*(-x3 + 1)*(2*x2 + x3 - 1)^5 + 174*(x3 - 1)^6 + 3185*(x3 - 1)^2*(2*x2 + x3 - 1)^4)/((x3 - 1)*(x2 + x3 - 1)) - 1/16*(6*x1*(x2 + x3 - 1)^3 + 5*(-x2 - x3 + 1)*(2*x1 + x2 + x3 - 1)^3 + 3*(x2 + x3 - 1)^4)*(390*x2*(x3 - 1)^5 + 1820*(-x3 + 1)^3*(2*x2 + x3 - 1)^3 + 1547*(-x3 + 1)*(2*x2 + x3 - 1)^5 + 174*(x3 - 1)^6 + 3185*(x3 - 1)^2*(2*x2 + x3 - 1)^4)/((x3 - 1)*(x2 + x3 - 1)^2);
  1/32*(12*(x2 + x3 - 1)^3 - 30*(x2 + x3 - 1)^2*(4*x1 + 2*x2 + 2*x3 - 2) - 30*(2*x2 + 2*x3 - 2)*(2*x1 + x2 + x3 - 1)^2 + 140*(2*x1 + x2 + x3 - 1)^3)*(600*x3 + 765*(2*x3 - 1)^4 + 1700*(2*x3 - 1)^3 + 1230*(2*x3 - 1)^2 - 291);
  1/8*(11*x2 + x3 - 1)*(252*x3 + 102*(2*x3 - 1)^3 + 204*(2*x3 - 1)^2 - 103)*(12*(x2 + x3 - 1)^3 - 30*(x2 + x3 - 1)^2*(4*x1 + 2*x2 + 2*x3 - 2) - 30*(2*x2 + 2*x3 - 2)*(2*x1 + x2 + x3 - 1)^2 + 140*(2*x1 + x2 + x3 - 1)^3) + 11/8*(3*(x2 + x3 - 1)^4 - 30*(x2 + x3 - 1)^2*(2*x1 + x2 + x3 - 1)^2 + 35*(2*x1 + x2 + x3 - 1)^4)*(252*x3 + 102*(2*x3 - 1)^3 + 204*(2*x3 - 1)^2 - 103);
  (-(108*(x3 - 1)^2 - 39*(x3 - 1)*(8*x2 + 4*x3 - 4)))*(476*x3 + 153*(2*x3 - 1)^2 - 149)*(3*(x2 + x3 - 1)^4 - 30*(x2 + x3 - 1)^2*(2*x1 + x2 + x3 - 1)^2 + 35*(2*x1 + x2 + x3 - 1)^4)/(64*x3 - 64) - (476*x3 + 153*(2*x3 - 1)^2 - 149)*(108*x2*(x3 - 1)^2 + 37*(x3 - 1)^3 - 39*(x3 - 1)*(2*x2 + x3 - 1)^2)*(12*(x2 + x3 - 1)^3 - 30*(x2 + x3 - 1)^2*(4*x1 + 2*x2 + 2*x3 - 2) - 30*(2*x2 + 2*x3 - 2)*(2*x1 + x2 + x3 - 1)^2 + 140*(2*x1 + x2 + x3 - 1)^3)/(64*x3 - 64);
  1/64*(18*x3 - 1)*((-819)*(-x3 + 1)^2*(8*x2 + 4*x3 - 4) - 2730*(-x3 + 1)*((-2)*x2 - x3 + 1)^2 + 858*(x3 - 1)^3)*(3*(x2 + x3 - 1)^4 - 30*(x2 + x3 - 1)^2*(2*x1 + x2 + x3 - 1)^2 + 35*(2*x1 + x2 + x3 - 1)^4)/(x3 - 1) + 1/64*(18*x3 - 1)*(858*x2*(x3 - 1)^3 - 819*(-x3 + 1)^2*((-2)*x2 - x3 + 1)^2 + 455*(-x3 + 1)*((-2)*x2 - x3 + 1)^3 + 372*(x3 - 1)^4)*(12*(x2 + x3 - 1)^3 - 30*(x2 + x3 - 1)^2*(4*x1 + 2*x2 + 2*x3 - 2) - 30*(2*x2 + 2*x3 - 2)*(2*x1 + x2 + x3 - 1)^2 + 140*(2*x1 + x2 + x3 - 1)^3)/(x3 - 1);
  1/32*(3*(x2 + x3 - 1)^4 - 30*(x2 + x3 - 1)^2*(2*x1 + x2 + x3 - 1)^2 + 35*(2*x1 + x2 + x3 - 1)^4)*((-336)*(x3 - 1)^3 + 840*(x3 - 1)^2*(8*x2 + 4*x3 - 4) - 7560*(x3 - 1)*(2*x2 + x3 - 1)^2 + 4760*(2*x2 + x3 - 1)^3) + 1/32*(12*(x2 + x3 - 1)^3 - 30*(x2 + x3 - 1)^2*(4*x1 + 2*x2 + 2*x3 - 2) - 30*(2*x2 + 2*x3 - 2)*(2*x1 + x2 + x3 - 1)^2 + 140*(2*x1 + x2 + x3 - 1)^3)*((-336)*x2*(x3 - 1)^3 - 171*(x3 - 1)^4 + 840*(x3 - 1)^2*(2*x2 + x3 - 1)^2 - 1260*(x3 - 1)*(2*x2 + x3 - 1)^3 + 595*(2*x2 + x3 - 1)^4);
  1/8*(252*x3 + 102*(2*x3 - 1)^3 + 204*(2*x3 - 1)^2 - 103)*(150*x1*(x2 + x3 - 1)^4 - 315*(-x2 - x3 + 1)*((-2)*x1 - x2 - x3 + 1)^4 + 90*(x2 + x3 - 1)^5 - 210*(x2 + x3 - 1)^3*((-2)*x1 - x2 - x3 + 1)^2 + 210*(x2 + x3 - 1)^2*((-2)*x1 - x2 - x3 + 1)^3 - 63*((-2)*x1 - x2 - x3 + 1)^5)/(x2 + x3 - 1) - 1/8*(252*x3 + 102*(2*x3 - 1)^3 + 204*(2*x3 - 1)^2 - 103)*(30*x1*(x2 + x3 - 1)^5 + 63*(-x2 - x3 + 1)*((-2)*x1 - x2 - x3 + 1)^5 + 15*(x2 + x3 - 1)^6 + 70*(x2 + x3 - 1)^3*((-2)*x1 - x2 - x3 + 1)^3)/(x2 + x3 - 1)^2;
  1/32*(13*x2 + x3 - 1)*(476*x3 + 153*(2*x3 - 1)^2 - 149)*(150*x1*(x2 + x3 - 1)^4 - 315*(-x2 - x3 + 1)*((-2)*x1 - x2 - x3 + 1)^4 + 90*(x2 + x3 - 1)^5 - 210*(x2 + x3 - 1)^3*((-2)*x1 - x2 - x3 + 1)^2 + 210*(x2 + x3 - 1)^2*((-2)*x1 - x2 - x3 + 1)^3 - 63*((-2)*x1 - x2 - x3 + 1)^5)/(x2 + x3 - 1) + 13/32*(476*x3 + 153*(2*x3 - 1)^2 - 149)*(30*x1*(x2 + x3 - 1)^5 + 63*(-x2 - x3 + 1)*((-2)*x1 - x2 - x3 + 1)^5 + 15*(x2 + x3 - 1)^6 + 70*(x2 + x3 - 1)^3*((-2)*x1 - x2 - x3 + 1)^3)/(x2 + x3 - 1) - 1/32*(13*x2 + x3 - 1)*(476*x3 + 153*(2*x3 - 1)^2 - 149)*(30*x1*(x2 + x3 - 1)^5 + 63*(-x2 - x3 + 1)*((-2)*x1 - x2 - x3 + 1)^5 + 15*(x2 + x3 - 1)^6 + 70*(x2 + x3 - 1)^3*((-2)*x1 - x2 - x3 + 1)^3)/(x2 + x3 - 1)^2;
  (-1)/32*(18*x3 - 1)*(308*(x3 - 1)^2 - 105*(x3 - 1)*(8*x2 + 4*x3 - 4))*(30*x1*(x2 + x3 - 1)^5 + 15*(x2 + x3 - 1)^6 - 70*(x2 + x3 - 1)^3*(2*x1 + x2 + x3 - 1)^3 + 63*(x2 + x3 - 1)*(2*x1 + x2 + x3 - 1)^5)/((x3 - 1)*(x2 + x3 - 1)) - 1/32*(18*x3 - 1)*(308*x2*(x3 - 1)^2 + 101*(x3 - 1)^3 - 105*(x3 - 1)*(2*x2 + x3 - 1)^2)*(150*x1*(x2 + x3 - 1)^4 + 90*(x2 + x3 - 1)^5 - 210*(x2 + x3 - 1)^3*(2*x1 + x2 + x3 - 1)^2 - 210*(x2 + x3 - 1)^2*(2*x1 + x2 + x3 - 1)^3 + 315*(x2 + x3 - 1)*(2*x1 + x2 + x3 - 1)^4 + 63*(2*x1 + x2 + x3 - 1)^5)/((x3 - 1)*(x2 + x3 - 1)) + 1/32*(18*x3 - 1)*(308*x2*(x3 - 1)^2 + 101*(x3 - 1)^3 - 105*(x3 - 1)*(2*x2 + x3 - 1)^2)*(30*x1*(x2 + x3 - 1)^5 + 15*(x2 + x3 - 1)^6 - 70*(x2 + x3 - 1)^3*(2*x1 + x2 + x3 - 1)^3 + 63*(x2 + x3 - 1)*(2*x1 + x2 + x3 - 1)^5)/((x3 - 1)*(x2 + x3 - 1)^2);
  1/8*(195*(x3 - 1)^2 - 165*(x3 - 1)*(8*x2 + 4*x3 - 4) + 510*((-2)*x2 - x3 + 1)^2)*(30*x1*(x2 + x3 - 1)^5 + 63*(-x2 - x3 + 1)*((-2)*x1 - x2 - x3 + 1)^5 + 15*(x2 + x3 - 1)^6 + 70*(x2 + x3 - 1)^3*((-2)*x1 - x2 - x3 + 1)^3)/(x2 + x3 - 1) + 1/8*(195*x2*(x3 - 1)^2 + 81*(x3 - 1)^3 - 165*(x3 - 1)*((-2)*x2 - x3 + 1)^2 - 85*((-2)*x2 - x3 + 1)^3)*(150*x1*(x2 + x3 - 1)^4 - 315*(-x2 - x3 + 1)*((-2)*x1 - x2 - x3 + 1)^4 + 90*(x2 + x3 - 1)^5 - 210*(x2 + x3 - 1)^3*((-2)*x1 - x2 - x3 + 1)^2 + 210*(x2 + x3 - 1)^2*((-2)*x1 - x2 - x3 + 1)^3 - 63*((-2)*x1 - x2 - x3 + 1)^5)/(x2 + x3 - 1) - 1/8*(30*x1*(x2 + x3 - 1)^5 + 63*(-x2 - x3 + 1)*((-2)*x1 - x2 - x3 + 1)^5 + 15*(x2 + x3 - 1)^6 + 70*(x2 + x3 - 1)^3*((-2)*x1 - x2 - x3 + 1)^3)*(195*x2*(x3 - 1)^2 + 81*(x3 - 1)^3 - 165*(x3 - 1)*((-2)*x2 - x3 + 1)^2 - 85*((-2)*x2 - x3 + 1)^3)/(x2 + x3 - 1)^2;
  1/64*(476*x3 + 153*(2*x3 - 1)^2 - 149)*((-30)*(x2 + x3 - 1)^5 + 105*(x2 + x3 - 1)^4*(4*x1 + 2*x2 + 2*x3 - 2) + 420*(x2 + x3 - 1)^3*(2*x1 + x2 + x3 - 1)^2 - 1260*(x2 + x3 - 1)^2*(2*x1 + x2 + x3 - 1)^3 - 315*(2*x2 + 2*x3 - 2)*(2*x1 + x2 + x3 - 1)^4 + 1386*(2*x1 + x2 + x3 - 1)^5);
  1/16*(18*x3 - 1)*(15*x2 + x3 - 1)*((-30)*(x2 + x3 - 1)^5 + 105*(x2 + x3 - 1)^4*(4*x1 + 2*x2 + 2*x3 - 2) + 420*(x2 + x3 - 1)^3*(2*x1 + x2 + x3 - 1)^2 - 1260*(x2 + x3 - 1)^2*(2*x1 + x2 + x3 - 1)^3 - 315*(2*x2 + 2*x3 - 2)*(2*x1 + x2 + x3 - 1)^4 + 1386*(2*x1 + x2 + x3 - 1)^5) + 15/16*(18*x3 - 1)*((-5)*(x2 + x3 - 1)^6 + 105*(x2 + x3 - 1)^4*(2*x1 + x2 + x3 - 1)^2 - 315*(x2 + x3 - 1)^2*(2*x1 + x2 + x3 - 1)^4 + 231*(2*x1 + x2 + x3 - 1)^6);
  (104*(x3 - 1)^2 - 34*(x3 - 1)*(8*x2 + 4*x3 - 4))*(5*(x2 + x3 - 1)^6 - 105*(x2 + x3 - 1)^4*(2*x1 + x2 + x3 - 1)^2 + 315*(x2 + x3 - 1)^2*(2*x1 + x2 + x3 - 1)^4 - 231*(2*x1 + x2 + x3 - 1)^6)/(16*x3 - 16) + (104*x2*(x3 - 1)^2 + 33*(x3 - 1)^3 - 34*(x3 - 1)*(2*x2 + x3 - 1)^2)*(30*(x2 + x3 - 1)^5 - 105*(x2 + x3 - 1)^4*(4*x1 + 2*x2 + 2*x3 - 2) - 420*(x2 + x3 - 1)^3*(2*x1 + x2 + x3 - 1)^2 + 1260*(x2 + x3 - 1)^2*(2*x1 + x2 + x3 - 1)^3 + 315*(2*x2 + 2*x3 - 2)*(2*x1 + x2 + x3 - 1)^4 - 1386*(2*x1 + x2 + x3 - 1)^5)/(16*x3 - 16);
  (-(18*x3 - 1))*(490*x1*(x2 + x3 - 1)^6 + 280*(x2 + x3 - 1)^7 - 945*(x2 + x3 - 1)^5*(2*x1 + x2 + x3 - 1)^2 - 1575*(x2 + x3 - 1)^4*(2*x1 + x2 + x3 - 1)^3 + 3465*(x2 + x3 - 1)^3*(2*x1 + x2 + x3 - 1)^4 + 2079*(x2 + x3 - 1)^2*(2*x1 + x2 + x3 - 1)^5 - 3003*(x2 + x3 - 1)*(2*x1 + x2 + x3 - 1)^6 - 429*(2*x1 + x2 + x3 - 1)^7)/(16*x2 + 16*x3 - 16) + 16*(18*x3 - 1)*(70*x1*(x2 + x3 - 1)^7 + 35*(x2 + x3 - 1)^8 - 315*(x2 + x3 - 1)^5*(2*x1 + x2 + x3 - 1)^3 + 693*(x2 + x3 - 1)^3*(2*x1 + x2 + x3 - 1)^5 - 429*(x2 + x3 - 1)*(2*x1 + x2 + x3 - 1)^7)/(16*x2 + 16*x3 - 16)^2;
  (-(17*x2 + x3 - 1))*(490*x1*(x2 + x3 - 1)^6 + 280*(x2 + x3 - 1)^7 - 945*(x2 + x3 - 1)^5*(2*x1 + x2 + x3 - 1)^2 - 1575*(x2 + x3 - 1)^4*(2*x1 + x2 + x3 - 1)^3 + 3465*(x2 + x3 - 1)^3*(2*x1 + x2 + x3 - 1)^4 + 2079*(x2 + x3 - 1)^2*(2*x1 + x2 + x3 - 1)^5 - 3003*(x2 + x3 - 1)*(2*x1 + x2 + x3 - 1)^6 - 429*(2*x1 + x2 + x3 - 1)^7)/(16*x2 + 16*x3 - 16) - 17*(70*x1*(x2 + x3 - 1)^7 + 35*(x2 + x3 - 1)^8 - 315*(x2 + x3 - 1)^5*(2*x1 + x2 + x3 - 1)^3 + 693*(x2 + x3 - 1)^3*(2*x1 + x2 + x3 - 1)^5 - 429*(x2 + x3 - 1)*(2*x1 + x2 + x3 - 1)^7)/(16*x2 + 16*x3 - 16) + 16*(17*x2 + x3 - 1)*(70*x1*(x2 + x3 - 1)^7 + 35*(x2 + x3 - 1)^8 - 315*(x2 + x3 - 1)^5*(2*x1 + x2 + x3 - 1)^3 + 693*(x2 + x3 - 1)^3*(2*x1 + x2 + x3 - 1)^5 - 429*(x2 + x3 - 1)*(2*x1 + x2 + x3 - 1)^7)/(16*x2 + 16*x3 - 16)^2;
  35/16*(x2 + x3 - 1)^7 - 315/32*(x2 + x3 - 1)^6*(4*x1 + 2*x2 + 2*x3 - 2) - 945/16*(x2 + x3 - 1)^5*(2*x1 + x2 + x3 - 1)^2 + 3465/16*(x2 + x3 - 1)^4*(2*x1 + x2 + x3 - 1)^3 + 3465/16*(x2 + x3 - 1)^3*(2*x1 + x2 + x3 - 1)^4 - 9009/16*(x2 + x3 - 1)^2*(2*x1 + x2 + x3 - 1)^5 - 3003/32*(2*x2 + 2*x3 - 2)*(2*x1 + x2 + x3 - 1)^6 + 6435/16*(2*x1 + x2 + x3 - 1)^7;
  0;
  (-273)/8*x3 + 188955/128*(2*x3 - 1)^8 + 37791/16*(2*x3 - 1)^7 - 13923/32*(2*x3 - 1)^6 - 32487/16*(2*x3 - 1)^5 - 25935/64*(2*x3 - 1)^4 + 6825/16*(2*x3 - 1)^3 + 3549/32*(2*x3 - 1)^2 + 1827/128;
  (-(4*(x3 - 1)^2 - 5*(x3 - 1)*(8*x2 + 4*x3 - 4)))*(616*x3 + 9690*(2*x3 - 1)^7 + 20349*(2*x3 - 1)^6 + 8568*(2*x3 - 1)^5 - 6545*(2*x3 - 1)^4 - 4830*(2*x3 - 1)^3 - 105*(2*x3 - 1)^2 - 287)/(32*x3 - 32);
  (-(30*(x3 - 1)^3 + 15*(x3 - 1)^2*(8*x2 + 4*x3 - 4) - 210*(x3 - 1)*(2*x2 + x3 - 1)^2))*((-600)*x3 + 4845*(2*x3 - 1)^6 + 11628*(2*x3 - 1)^5 + 8415*(2*x3 - 1)^4 + 680*(2*x3 - 1)^3 - 1245*(2*x3 - 1)^2 + 301)/(64*x3 - 64);
  1/32*(24*(x3 - 1)^3 - 42*(x3 - 1)^2*(8*x2 + 4*x3 - 4) - 168*(x3 - 1)*(2*x2 + x3 - 1)^2 + 504*(2*x2 + x3 - 1)^3)*((-20)*x3 + 1938*(2*x3 - 1)^5 + 4845*(2*x3 - 1)^4 + 4080*(2*x3 - 1)^3 + 1190*(2*x3 - 1)^2 - 21);
  1/256*(5848*x3 + 4845*(2*x3 - 1)^4 + 11628*(2*x3 - 1)^3 + 9486*(2*x3 - 1)^2 - 2687)*(840*(-x3 + 1)^2*((-2)*x2 - x3 + 1)^3 - 2310*(-x3 + 1)*((-2)*x2 - x3 + 1)^4 + 70*(x3 - 1)^5 + 70*(x3 - 1)^4*(8*x2 + 4*x3 - 4) - 1260*(x3 - 1)^3*((-2)*x2 - x3 + 1)^2)/(x3 - 1);
  (-(1584*x3 + 570*(2*x3 - 1)^3 + 1197*(2*x3 - 1)^2 - 631))*(60*(x3 - 1)^6 - 135*(x3 - 1)^5*(8*x2 + 4*x3 - 4) - 1080*(x3 - 1)^4*(2*x2 + x3 - 1)^2 + 3960*(x3 - 1)^3*(2*x2 + x3 - 1)^3 + 1980*(x3 - 1)^2*(2*x2 + x3 - 1)^4 - 5148*(x3 - 1)*(2*x2 + x3 - 1)^5)/(64*x3 - 64);
  (-(304*x3 + 95*(2*x3 - 1)^2 - 93))*(630*(x3 - 1)^7 + 945*(x3 - 1)^6*(8*x2 + 4*x3 - 4) - 20790*(x3 - 1)^5*(2*x2 + x3 - 1)^2 - 27720*(x3 - 1)^4*(2*x2 + x3 - 1)^3 + 90090*(x3 - 1)^3*(2*x2 + x3 - 1)^4 + 36036*(x3 - 1)^2*(2*x2 + x3 - 1)^5 - 90090*(x3 - 1)*(2*x2 + x3 - 1)^6)/(256*x3 - 256);
  1/128*(20*x3 - 1)*((-1540)*(-x3 + 1)^6*(8*x2 + 4*x3 - 4) + 18480*(-x3 + 1)^5*(2*x2 + x3 - 1)^2 - 240240*(-x3 + 1)^2*(2*x2 + x3 - 1)^5 + 80080*(-x3 + 1)*(2*x2 + x3 - 1)^6 + 560*(x3 - 1)^7 + 80080*(x3 - 1)^4*(2*x2 + x3 - 1)^3 + 80080*(x3 - 1)^3*(2*x2 + x3 - 1)^4 + 194480*(2*x2 + x3 - 1)^7);
  1/256*(144144*(-x3 + 1)^6*((-2)*x2 - x3 + 1)^3 - 540540*(-x3 + 1)^5*((-2)*x2 - x3 + 1)^4 + 350064*(-x3 + 1)^2*((-2)*x2 - x3 + 1)^7 - 831402*(-x3 + 1)*((-2)*x2 - x3 + 1)^8 + 1386*(x3 - 1)^9 + 2772*(x3 - 1)^8*(8*x2 + 4*x3 - 4) - 72072*(x3 - 1)^7*((-2)*x2 - x3 + 1)^2 - 432432*(x3 - 1)^4*((-2)*x2 - x3 + 1)^5 - 1225224*(x3 - 1)^3*((-2)*x2 - x3 + 1)^6)/(x3 - 1);
  (-91)/8*x3 + 62985/128*(2*x3 - 1)^8 + 12597/16*(2*x3 - 1)^7 - 4641/32*(2*x3 - 1)^6 - 10829/16*(2*x3 - 1)^5 - 8645/64*(2*x3 - 1)^4 + 2275/16*(2*x3 - 1)^3 + 1183/32*(2*x3 - 1)^2 + 609/128;
  1/16*(5*x2 + x3 - 1)*(616*x3 + 9690*(2*x3 - 1)^7 + 20349*(2*x3 - 1)^6 + 8568*(2*x3 - 1)^5 - 6545*(2*x3 - 1)^4 - 4830*(2*x3 - 1)^3 - 105*(2*x3 - 1)^2 - 287) + 5/16*(2*x1 + x2 + x3 - 1)*(616*x3 + 9690*(2*x3 - 1)^7 + 20349*(2*x3 - 1)^6 + 8568*(2*x3 - 1)^5 - 6545*(2*x3 - 1)^4 - 4830*(2*x3 - 1)^3 - 105*(2*x3 - 1)^2 - 287);
  (-(36*(x3 - 1)^2 - 21*(x3 - 1)*(8*x2 + 4*x3 - 4)))*(2*x1 + x2 + x3 - 1)*((-600)*x3 + 4845*(2*x3 - 1)^6 + 11628*(2*x3 - 1)^5 + 8415*(2*x3 - 1)^4 + 680*(2*x3 - 1)^3 - 1245*(2*x3 - 1)^2 + 301)/(32*x3 - 32) - (36*x2*(x3 - 1)^2 + 17*(x3 - 1)^3 - 21*(x3 - 1)*(2*x2 + x3 - 1)^2)*((-600)*x3 + 4845*(2*x3 - 1)^6 + 11628*(2*x3 - 1)^5 + 8415*(2*x3 - 1)^4 + 680*(2*x3 - 1)^3 - 1245*(2*x3 - 1)^2 + 301)/(32*x3 - 32);
  1/8*((-21)*(x3 - 1)*(8*x2 + 4*x3 - 4) + 126*(2*x2 + x3 - 1)^2)*(2*x1 + x2 + x3 - 1)*((-20)*x3 + 1938*(2*x3 - 1)^5 + 4845*(2*x3 - 1)^4 + 4080*(2*x3 - 1)^3 + 1190*(2*x3 - 1)^2 - 21) + 1/8*(2*(x3 - 1)^3 - 21*(x3 - 1)*(2*x2 + x3 - 1)^2 + 21*(2*x2 + x3 - 1)^3)*((-20)*x3 + 1938*(2*x3 - 1)^5 + 4845*(2*x3 - 1)^4 + 4080*(2*x3 - 1)^3 + 1190*(2*x3 - 1)^2 - 21);
  1/128*(2*x1 + x2 + x3 - 1)*(88*(x3 - 1)^3 - 18*(x3 - 1)^2*(8*x2 + 4*x3 - 4) - 1080*(x3 - 1)*(2*x2 + x3 - 1)^2 + 1320*(2*x2 + x3 - 1)^3)*(5848*x3 + 4845*(2*x3 - 1)^4 + 11628*(2*x3 - 1)^3 + 9486*(2*x3 - 1)^2 - 2687) + 1/128*(5848*x3 + 4845*(2*x3 - 1)^4 + 11628*(2*x3 - 1)^3 + 9486*(2*x3 - 1)^2 - 2687)*(88*x2*(x3 - 1)^3 + 41*(x3 - 1)^4 - 18*(x3 - 1)^2*(2*x2 + x3 - 1)^2 - 180*(x3 - 1)*(2*x2 + x3 - 1)^3 + 165*(2*x2 + x3 - 1)^4);
  1/128*(2*x1 + x2 + x3 - 1)*(1584*x3 + 570*(2*x3 - 1)^3 + 1197*(2*x3 - 1)^2 - 631)*(11880*(-x3 + 1)^2*((-2)*x2 - x3 + 1)^3 - 12870*(-x3 + 1)*((-2)*x2 - x3 + 1)^4 - 90*(x3 - 1)^5 + 630*(x3 - 1)^4*(8*x2 + 4*x3 - 4) - 1980*(x3 - 1)^3*((-2)*x2 - x3 + 1)^2)/(x3 - 1) + 1/128*(1584*x3 + 570*(2*x3 - 1)^3 + 1197*(2*x3 - 1)^2 - 631)*((-90)*x2*(x3 - 1)^5 - 70*(-x3 + 1)^6 - 1485*(-x3 + 1)^2*((-2)*x2 - x3 + 1)^4 + 1287*(-x3 + 1)*((-2)*x2 - x3 + 1)^5 + 630*(x3 - 1)^4*((-2)*x2 - x3 + 1)^2 + 330*(x3 - 1)^3*((-2)*x2 - x3 + 1)^3)/(x3 - 1);
  (-(304*x3 + 95*(2*x3 - 1)^2 - 93))*(2*x1 + x2 + x3 - 1)*(780*(x3 - 1)^6 + 165*(x3 - 1)^5*(8*x2 + 4*x3 - 4) - 22440*(x3 - 1)^4*(2*x2 + x3 - 1)^2 + 17160*(x3 - 1)^3*(2*x2 + x3 - 1)^3 + 60060*(x3 - 1)^2*(2*x2 + x3 - 1)^4 - 60060*(x3 - 1)*(2*x2 + x3 - 1)^5)/(128*x3 - 128) - (304*x3 + 95*(2*x3 - 1)^2 - 93)*(780*x2*(x3 - 1)^6 + 365*(x3 - 1)^7 + 165*(x3 - 1)^5*(2*x2 + x3 - 1)^2 - 3740*(x3 - 1)^4*(2*x2 + x3 - 1)^3 + 2145*(x3 - 1)^3*(2*x2 + x3 - 1)^4 + 6006*(x3 - 1)^2*(2*x2 + x3 - 1)^5 - 5005*(x3 - 1)*(2*x2 + x3 - 1)^6)/(128*x3 - 128);
  1/32*(20*x3 - 1)*(2*x1 + x2 + x3 - 1)*((-924)*(-x3 + 1)^6*(8*x2 + 4*x3 - 4) + 72072*(-x3 + 1)^2*((-2)*x2 - x3 + 1)^5 - 68068*(-x3 + 1)*((-2)*x2 - x3 + 1)^6 + 154*(x3 - 1)^7 - 40040*(x3 - 1)^4*((-2)*x2 - x3 + 1)^3 - 30030*(x3 - 1)^3*((-2)*x2 - x3 + 1)^4)/(x3 - 1) + 1/32*(20*x3 - 1)*(154*x2*(x3 - 1)^7 - 924*(-x3 + 1)^6*((-2)*x2 - x3 + 1)^2 - 6006*(-x3 + 1)^2*((-2)*x2 - x3 + 1)^6 + 4862*(-x3 + 1)*((-2)*x2 - x3 + 1)^7 + 98*(x3 - 1)^8 + 5005*(x3 - 1)^4*((-2)*x2 - x3 + 1)^4 + 3003*(x3 - 1)^3*((-2)*x2 - x3 + 1)^5)/(x3 - 1);
  105/8*x2*(x3 - 1)^7 + 1729/16*(-x3 + 1)^5*(2*x2 + x3 - 1)^3 - 7735/32*(-x3 + 1)^2*(2*x2 + x3 - 1)^6 + 5967/16*(-x3 + 1)*(2*x2 + x3 - 1)^7 + 791/128*(x3 - 1)^8 + 273/32*(x3 - 1)^6*(2*x2 + x3 - 1)^2 + 1365/64*(x3 - 1)^4*(2*x2 + x3 - 1)^4 + 6279/16*(x3 - 1)^3*(2*x2 + x3 - 1)^5 + 37791/128*(2*x2 + x3 - 1)^8 + 1/128*(2*x1 + x2 + x3 - 1)*(82992*(-x3 + 1)^5*(2*x2 + x3 - 1)^2 - 371280*(-x3 + 1)^2*(2*x2 + x3 - 1)^5 + 668304*(-x3 + 1)*(2*x2 + x3 - 1)^6 + 1680*(x3 - 1)^7 + 1092*(x3 - 1)^6*(8*x2 + 4*x3 - 4) + 21840*(x3 - 1)^4*(2*x2 + x3 - 1)^3 + 502320*(x3 - 1)^3*(2*x2 + x3 - 1)^4 + 604656*(2*x2 + x3 - 1)^7);
  1/32*(12*x1 + 4*x2 + 4*x3 - 4)*(616*x3 + 9690*(2*x3 - 1)^7 + 20349*(2*x3 - 1)^6 + 8568*(2*x3 - 1)^5 - 6545*(2*x3 - 1)^4 - 4830*(2*x3 - 1)^3 - 105*(2*x3 - 1)^2 - 287);
  7/16*(-(x2 + x3 - 1)^2 + 3*(2*x1 + x2 + x3 - 1)^2)*((-600)*x3 + 4845*(2*x3 - 1)^6 + 11628*(2*x3 - 1)^5 + 8415*(2*x3 - 1)^4 + 680*(2*x3 - 1)^3 - 1245*(2*x3 - 1)^2 + 301) + 1/16*(7*x2 + x3 - 1)*(12*x1 + 4*x2 + 4*x3 - 4)*((-600)*x3 + 4845*(2*x3 - 1)^6 + 11628*(2*x3 - 1)^5 + 8415*(2*x3 - 1)^4 + 680*(2*x3 - 1)^3 - 1245*(2*x3 - 1)^2 + 301);
  (20*(x3 - 1)^2 - 9*(x3 - 1)*(8*x2 + 4*x3 - 4))*((x2 + x3 - 1)^2 - 3*(2*x1 + x2 + x3 - 1)^2)*((-20)*x3 + 1938*(2*x3 - 1)^5 + 4845*(2*x3 - 1)^4 + 4080*(2*x3 - 1)^3 + 1190*(2*x3 - 1)^2 - 21)/(8*x3 - 8) + (20*x2*(x3 - 1)^2 + 8*(x3 - 1)^3 - 9*(x3 - 1)*(2*x2 + x3 - 1)^2)*((-12)*x1 - 4*x2 - 4*x3 + 4)*((-20)*x3 + 1938*(2*x3 - 1)^5 + 4845*(2*x3 - 1)^4 + 4080*(2*x3 - 1)^3 + 1190*(2*x3 - 1)^2 - 21)/(8*x3 - 8);
  1/256*(-(x2 + x3 - 1)^2 + 3*(2*x1 + x2 + x3 - 1)^2)*((-225)*(-x3 + 1)^2*(8*x2 + 4*x3 - 4) - 990*(-x3 + 1)*((-2)*x2 - x3 + 1)^2 + 126*(x3 - 1)^3)*(5848*x3 + 4845*(2*x3 - 1)^4 + 11628*(2*x3 - 1)^3 + 9486*(2*x3 - 1)^2 - 2687)/(x3 - 1) + 1/256*(12*x1 + 4*x2 + 4*x3 - 4)*(126*x2*(x3 - 1)^3 - 225*(-x3 + 1)^2*((-2)*x2 - x3 + 1)^2 + 165*(-x3 + 1)*((-2)*x2 - x3 + 1)^3 + 68*(x3 - 1)^4)*(5848*x3 + 4845*(2*x3 - 1)^4 + 11628*(2*x3 - 1)^3 + 9486*(2*x3 - 1)^2 - 2687)/(x3 - 1);
  1/128*(-(x2 + x3 - 1)^2 + 3*(2*x1 + x2 + x3 - 1)^2)*(1584*x3 + 570*(2*x3 - 1)^3 + 1197*(2*x3 - 1)^2 - 631)*(200*(x3 - 1)^3 + 330*(x3 - 1)^2*(8*x2 + 4*x3 - 4) - 6600*(x3 - 1)*(2*x2 + x3 - 1)^2 + 5720*(2*x2 + x3 - 1)^3) + 1/128*(12*x1 + 4*x2 + 4*x3 - 4)*(1584*x3 + 570*(2*x3 - 1)^3 + 1197*(2*x3 - 1)^2 - 631)*(200*x2*(x3 - 1)^3 + 71*(x3 - 1)^4 + 330*(x3 - 1)^2*(2*x2 + x3 - 1)^2 - 1100*(x3 - 1)*(2*x2 + x3 - 1)^3 + 715*(2*x2 + x3 - 1)^4);
  ((x2 + x3 - 1)^2 - 3*(2*x1 + x2 + x3 - 1)^2)*(304*x3 + 95*(2*x3 - 1)^2 - 93)*(770*(x3 - 1)^5 - 990*(x3 - 1)^4*(8*x2 + 4*x3 - 4) - 8580*(x3 - 1)^3*(2*x2 + x3 - 1)^2 + 40040*(x3 - 1)^2*(2*x2 + x3 - 1)^3 - 30030*(x3 - 1)*(2*x2 + x3 - 1)^4)/(128*x3 - 128) + (304*x3 + 95*(2*x3 - 1)^2 - 93)*((-12)*x1 - 4*x2 - 4*x3 + 4)*(770*x2*(x3 - 1)^5 + 386*(x3 - 1)^6 - 990*(x3 - 1)^4*(2*x2 + x3 - 1)^2 - 1430*(x3 - 1)^3*(2*x2 + x3 - 1)^3 + 5005*(x3 - 1)^2*(2*x2 + x3 - 1)^4 - 3003*(x3 - 1)*(2*x2 + x3 - 1)^5)/(128*x3 - 128);
  1/32*(20*x3 - 1)*((x2 + x3 - 1)^2 - 3*(2*x1 + x2 + x3 - 1)^2)*(96*(x3 - 1)^5 + 780*(x3 - 1)^4*(8*x2 + 4*x3 - 4) - 10920*(x3 - 1)^3*(2*x2 + x3 - 1)^2 - 10920*(x3 - 1)^2*(2*x2 + x3 - 1)^3 + 54600*(x3 - 1)*(2*x2 + x3 - 1)^4 - 37128*(2*x2 + x3 - 1)^5) + 1/32*(20*x3 - 1)*((-12)*x1 - 4*x2 - 4*x3 + 4)*(96*x2*(x3 - 1)^5 + 23*(x3 - 1)^6 + 780*(x3 - 1)^4*(2*x2 + x3 - 1)^2 - 1820*(x3 - 1)^3*(2*x2 + x3 - 1)^3 - 1365*(x3 - 1)^2*(2*x2 + x3 - 1)^4 + 5460*(x3 - 1)*(2*x2 + x3 - 1)^5 - 3094*(2*x2 + x3 - 1)^6);
  1/64*(-(x2 + x3 - 1)^2 + 3*(2*x1 + x2 + x3 - 1)^2)*((-819)*(-x3 + 1)^6*(8*x2 + 4*x3 - 4) - 46410*(-x3 + 1)^3*((-2)*x2 - x3 + 1)^4 + 278460*(-x3 + 1)^2*((-2)*x2 - x3 + 1)^5 - 176358*(-x3 + 1)*((-2)*x2 - x3 + 1)^6 + 910*(x3 - 1)^7 - 30030*(x3 - 1)^5*((-2)*x2 - x3 + 1)^2 - 91000*(x3 - 1)^4*((-2)*x2 - x3 + 1)^3)/(x3 - 1) + 1/64*(12*x1 + 4*x2 + 4*x3 - 4)*(910*x2*(x3 - 1)^7 - 819*(-x3 + 1)^6*((-2)*x2 - x3 + 1)^2 + 4641*(-x3 + 1)^3*((-2)*x2 - x3 + 1)^5 - 23205*(-x3 + 1)^2*((-2)*x2 - x3 + 1)^6 + 12597*(-x3 + 1)*((-2)*x2 - x3 + 1)^7 + 448*(x3 - 1)^8 + 5005*(x3 - 1)^5*((-2)*x2 - x3 + 1)^3 + 11375*(x3 - 1)^4*((-2)*x2 - x3 + 1)^4)/(x3 - 1);
  (-(18*x1*(x2 + x3 - 1)^2 + 12*(x2 + x3 - 1)^3 - 15*(x2 + x3 - 1)*(2*x1 + x2 + x3 - 1)^2 - 5*(2*x1 + x2 + x3 - 1)^3))*((-600)*x3 + 4845*(2*x3 - 1)^6 + 11628*(2*x3 - 1)^5 + 8415*(2*x3 - 1)^4 + 680*(2*x3 - 1)^3 - 1245*(2*x3 - 1)^2 + 301)/(16*x2 + 16*x3 - 16) + 16*(6*x1*(x2 + x3 - 1)^3 + 3*(x2 + x3 - 1)^4 - 5*(x2 + x3 - 1)*(2*x1 + x2 + x3 - 1)^3)*((-600)*x3 + 4845*(2*x3 - 1)^6 + 11628*(2*x3 - 1)^5 + 8415*(2*x3 - 1)^4 + 680*(2*x3 - 1)^3 - 1245*(2*x3 - 1)^2 + 301)/(16*x2 + 16*x3 - 16)^2;
  1/8*(9*x2 + x3 - 1)*(18*x1*(x2 + x3 - 1)^2 + 15*(-x2 - x3 + 1)*(2*x1 + x2 + x3 - 1)^2 + 12*(x2 + x3 - 1)^3 - 5*(2*x1 + x2 + x3 - 1)^3)*((-20)*x3 + 1938*(2*x3 - 1)^5 + 4845*(2*x3 - 1)^4 + 4080*(2*x3 - 1)^3 + 1190*(2*x3 - 1)^2 - 21)/(-x2 - x3 + 1) + 9/8*(6*x1*(x2 + x3 - 1)^3 + 5*(-x2 - x3 + 1)*(2*x1 + x2 + x3 - 1)^3 + 3*(x2 + x3 - 1)^4)*((-20)*x3 + 1938*(2*x3 - 1)^5 + 4845*(2*x3 - 1)^4 + 4080*(2*x3 - 1)^3 + 1190*(2*x3 - 1)^2 - 21)/(-x2 - x3 + 1) + 1/8*(9*x2 + x3 - 1)*(6*x1*(x2 + x3 - 1)^3 + 5*(-x2 - x3 + 1)*(2*x1 + x2 + x3 - 1)^3 + 3*(x2 + x3 - 1)^4)*((-20)*x3 + 1938*(2*x3 - 1)^5 + 4845*(2*x3 - 1)^4 + 4080*(2*x3 - 1)^3 + 1190*(2*x3 - 1)^2 - 21)/(-x2 - x3 + 1)^2;
  1/128*(55*(-x3 + 1)*(8*x2 + 4*x3 - 4) + 140*(x3 - 1)^2)*(6*x1*(x2 + x3 - 1)^3 + 5*(-x2 - x3 + 1)*(2*x1 + x2 + x3 - 1)^3 + 3*(x2 + x3 - 1)^4)*(5848*x3 + 4845*(2*x3 - 1)^4 + 11628*(2*x3 - 1)^3 + 9486*(2*x3 - 1)^2 - 2687)/((x3 - 1)*(x2 + x3 - 1)) + 1/128*(140*x2*(x3 - 1)^2 + 55*(-x3 + 1)*((-2)*x2 - x3 + 1)^2 + 51*(x3 - 1)^3)*(18*x1*(x2 + x3 - 1)^2 + 15*(-x2 - x3 + 1)*(2*x1 + x2 + x3 - 1)^2 + 12*(x2 + x3 - 1)^3 - 5*(2*x1 + x2 + x3 - 1)^3)*(5848*x3 + 4845*(2*x3 - 1)^4 + 11628*(2*x3 - 1)^3 + 9486*(2*x3 - 1)^2 - 2687)/((x3 - 1)*(x2 + x3 - 1)) - 1/128*(6*x1*(x2 + x3 - 1)^3 + 5*(-x2 - x3 + 1)*(2*x1 + x2 + x3 - 1)^3 + 3*(x2 + x3 - 1)^4)*(140*x2*(x3 - 1)^2 + 55*(-x3 + 1)*((-2)*x2 - x3 + 1)^2 + 51*(x3 - 1)^3)*(5848*x3 + 4845*(2*x3 - 1)^4 + 11628*(2*x3 - 1)^3 + 9486*(2*x3 - 1)^2 - 2687)/((x3 - 1)*(x2 + x3 - 1)^2);
  (-(6*x1*(x2 + x3 - 1)^3 + 3*(x2 + x3 - 1)^4 - 5*(x2 + x3 - 1)*(2*x1 + x2 + x3 - 1)^3))*(198*(x3 - 1)^2 - 231*(x3 - 1)*(8*x2 + 4*x3 - 4) + 858*(2*x2 + x3 - 1)^2)*(1584*x3 + 570*(2*x3 - 1)^3 + 1197*(2*x3 - 1)^2 - 631)/(32*x2 + 32*x3 - 32) - (1584*x3 + 570*(2*x3 - 1)^3 + 1197*(2*x3 - 1)^2 - 631)*(18*x1*(x2 + x3 - 1)^2 + 12*(x2 + x3 - 1)^3 - 15*(x2 + x3 - 1)*(2*x1 + x2 + x3 - 1)^2 - 5*(2*x1 + x2 + x3 - 1)^3)*(198*x2*(x3 - 1)^2 + 92*(x3 - 1)^3 - 231*(x3 - 1)*(2*x2 + x3 - 1)^2 + 143*(2*x2 + x3 - 1)^3)/(32*x2 + 32*x3 - 32) + 32*(6*x1*(x2 + x3 - 1)^3 + 3*(x2 + x3 - 1)^4 - 5*(x2 + x3 - 1)*(2*x1 + x2 + x3 - 1)^3)*(1584*x3 + 570*(2*x3 - 1)^3 + 1197*(2*x3 - 1)^2 - 631)*(198*x2*(x3 - 1)^2 + 92*(x3 - 1)^3 - 231*(x3 - 1)*(2*x2 + x3 - 1)^2 + 143*(2*x2 + x3 - 1)^3)/(32*x2 + 32*x3 - 32)^2;
  (304*x3 + 95*(2*x3 - 1)^2 - 93)*(6*x1*(x2 + x3 - 1)^3 + 3*(x2 + x3 - 1)^4 - 5*(x2 + x3 - 1)*(2*x1 + x2 + x3 - 1)^3)*(168*(x3 - 1)^3 - 1326*(x3 - 1)^2*(8*x2 + 4*x3 - 4) + 15288*(x3 - 1)*(2*x2 + x3 - 1)^2 - 10920*(2*x2 + x3 - 1)^3)/(64*x2 + 64*x3 - 64) + (304*x3 + 95*(2*x3 - 1)^2 - 93)*(18*x1*(x2 + x3 - 1)^2 + 12*(x2 + x3 - 1)^3 - 15*(x2 + x3 - 1)*(2*x1 + x2 + x3 - 1)^2 - 5*(2*x1 + x2 + x3 - 1)^3)*(168*x2*(x3 - 1)^3 + 127*(x3 - 1)^4 - 1326*(x3 - 1)^2*(2*x2 + x3 - 1)^2 + 2548*(x3 - 1)*(2*x2 + x3 - 1)^3 - 1365*(2*x2 + x3 - 1)^4)/(64*x2 + 64*x3 - 64) - 64*(304*x3 + 95*(2*x3 - 1)^2 - 93)*(6*x1*(x2 + x3 - 1)^3 + 3*(x2 + x3 - 1)^4 - 5*(x2 + x3 - 1)*(2*x1 + x2 + x3 - 1)^3)*(168*x2*(x3 - 1)^3 + 127*(x3 - 1)^4 - 1326*(x3 - 1)^2*(2*x2 + x3 - 1)^2 + 2548*(x3 - 1)*(2*x2 + x3 - 1)^3 - 1365*(2*x2 + x3 - 1)^4)/(64*x2 + 64*x3 - 64)^2;
  1/16*(20*x3 - 1)*(6*x1*(x2 + x3 - 1)^3 + 5*(-x2 - x3 + 1)*(2*x1 + x2 + x3 - 1)^3 + 3*(x2 + x3 - 1)^4)*(10920*(-x3 + 1)^3*(2*x2 + x3 - 1)^2 + 15470*(-x3 + 1)*(2*x2 + x3 - 1)^4 + 390*(x3 - 1)^5 + 25480*(x3 - 1)^2*(2*x2 + x3 - 1)^3)/((x3 - 1)*(x2 + x3 - 1)) + 1/16*(20*x3 - 1)*(18*x1*(x2 + x3 - 1)^2 + 15*(-x2 - x3 + 1)*(2*x1 + x2 + x3 - 1)^2 + 12*(x2 + x3 - 1)^3 - 5*(2*x1 + x2 + x3 - 1)^3)*(390*x2*(x3 - 1)^5 + 1820*(-x3 + 1)^3*(2*x2 + x3 - 1)^3 + 1547*(-x3 + 1)*(2*x2 + x3 - 1)^5 + 174*(x3 - 1)^6 + 3185*(x3 - 1)^2*(2*x2 + x3 - 1)^4)/((x3 - 1)*(x2 + x3 - 1)) - 1/16*(20*x3 - 1)*(6*x1*(x2 + x3 - 1)^3 + 5*(-x2 - x3 + 1)*(2*x1 + x2 + x3 - 1)^3 + 3*(x2 + x3 - 1)^4)*(390*x2*(x3 - 1)^5 + 1820*(-x3 + 1)^3*(2*x2 + x3 - 1)^3 + 1547*(-x3 + 1)*(2*x2 + x3 - 1)^5 + 174*(x3 - 1)^6 + 3185*(x3 - 1)^2*(2*x2 + x3 - 1)^4)/((x3 - 1)*(x2 + x3 - 1)^2);
  (-(6*x1*(x2 + x3 - 1)^3 + 3*(x2 + x3 - 1)^4 - 5*(x2 + x3 - 1)*(2*x1 + x2 + x3 - 1)^3))*(588*(x3 - 1)^5 - 1995*(x3 - 1)^4*(8*x2 + 4*x3 - 4) + 5880*(x3 - 1)^3*(2*x2 + x3 - 1)^2 + 71400*(x3 - 1)^2*(2*x2 + x3 - 1)^3 - 149940*(x3 - 1)*(2*x2 + x3 - 1)^4 + 81396*(2*x2 + x3 - 1)^5)/(32*x2 + 32*x3 - 32) - (18*x1*(x2 + x3 - 1)^2 + 12*(x2 + x3 - 1)^3 - 15*(x2 + x3 - 1)*(2*x1 + x2 + x3 - 1)^2 - 5*(2*x1 + x2 + x3 - 1)^3)*(588*x2*(x3 - 1)^5 + 317*(x3 - 1)^6 - 1995*(x3 - 1)^4*(2*x2 + x3 - 1)^2 + 980*(x3 - 1)^3*(2*x2 + x3 - 1)^3 + 8925*(x3 - 1)^2*(2*x2 + x3 - 1)^4 - 14994*(x3 - 1)*(2*x2 + x3 - 1)^5 + 6783*(2*x2 + x3 - 1)^6)/(32*x2 + 32*x3 - 32) + 32*(6*x1*(x2 + x3 - 1)^3 + 3*(x2 + x3 - 1)^4 - 5*(x2 + x3 - 1)*(2*x1 + x2 + x3 - 1)^3)*(588*x2*(x3 - 1)^5 + 317*(x3 - 1)^6 - 1995*(x3 - 1)^4*(2*x2 + x3 - 1)^2 + 980*(x3 - 1)^3*(2*x2 + x3 - 1)^3 + 8925*(x3 - 1)^2*(2*x2 + x3 - 1)^4 - 14994*(x3 - 1)*(2*x2 + x3 - 1)^5 + 6783*(2*x2 + x3 - 1)^6)/(32*x2 + 32*x3 - 32)^2;
  1/32*(12*(x2 + x3 - 1)^3 - 30*(x2 + x3 - 1)^2*(4*x1 + 2*x2 + 2*x3 - 2) - 30*(2*x2 + 2*x3 - 2)*(2*x1 + x2 + x3 - 1)^2 + 140*(2*x1 + x2 + x3 - 1)^3)*((-20)*x3 + 1938*(2*x3 - 1)^5 + 4845*(2*x3 - 1)^4 + 4080*(2*x3 - 1)^3 + 1190*(2*x3 - 1)^2 - 21);
  1/128*(11*x2 + x3 - 1)*(12*(x2 + x3 - 1)^3 - 30*(x2 + x3 - 1)^2*(4*x1 + 2*x2 + 2*x3 - 2) - 30*(2*x2 + 2*x3 - 2)*(2*x1 + x2 + x3 - 1)^2 + 140*(2*x1 + x2 + x3 - 1)^3)*(5848*x3 + 4845*(2*x3 - 1)^4 + 11628*(2*x3 - 1)^3 + 9486*(2*x3 - 1)^2 - 2687) + 11/128*(3*(x2 + x3 - 1)^4 - 30*(x2 + x3 - 1)^2*(2*x1 + x2 + x3 - 1)^2 + 35*(2*x1 + x2 + x3 - 1)^4)*(5848*x3 + 4845*(2*x3 - 1)^4 + 11628*(2*x3 - 1)^3 + 9486*(2*x3 - 1)^2 - 2687);
  (-(108*(x3 - 1)^2 - 39*(x3 - 1)*(8*x2 + 4*x3 - 4)))*(3*(x2 + x3 - 1)^4 - 30*(x2 + x3 - 1)^2*(2*x1 + x2 + x3 - 1)^2 + 35*(2*x1 + x2 + x3 - 1)^4)*(1584*x3 + 570*(2*x3 - 1)^3 + 1197*(2*x3 - 1)^2 - 631)/(64*x3 - 64) - (108*x2*(x3 - 1)^2 + 37*(x3 - 1)^3 - 39*(x3 - 1)*(2*x2 + x3 - 1)^2)*(1584*x3 + 570*(2*x3 - 1)^3 + 1197*(2*x3 - 1)^2 - 631)*(12*(x2 + x3 - 1)^3 - 30*(x2 + x3 - 1)^2*(4*x1 + 2*x2 + 2*x3 - 2) - 30*(2*x2 + 2*x3 - 2)*(2*x1 + x2 + x3 - 1)^2 + 140*(2*x1 + x2 + x3 - 1)^3)/(64*x3 - 64);
  1/128*(304*x3 + 95*(2*x3 - 1)^2 - 93)*((-819)*(-x3 + 1)^2*(8*x2 + 4*x3 - 4) - 2730*(-x3 + 1)*((-2)*x2 - x3 + 1)^2 + 858*(x3 - 1)^3)*(3*(x2 + x3 - 1)^4 - 30*(x2 + x3 - 1)^2*(2*x1 + x2 + x3 - 1)^2 + 35*(2*x1 + x2 + x3 - 1)^4)/(x3 - 1) + 1/128*(304*x3 + 95*(2*x3 - 1)^2 - 93)*(858*x2*(x3 - 1)^3 - 819*(-x3 + 1)^2*((-2)*x2 - x3 + 1)^2 + 455*(-x3 + 1)*((-2)*x2 - x3 + 1)^3 + 372*(x3 - 1)^4)*(12*(x2 + x3 - 1)^3 - 30*(x2 + x3 - 1)^2*(4*x1 + 2*x2 + 2*x3 - 2) - 30*(2*x2 + 2*x3 - 2)*(2*x1 + x2 + x3 - 1)^2 + 140*(2*x1 + x2 + x3 - 1)^3)/(x3 - 1);
  1/32*(20*x3 - 1)*(3*(x2 + x3 - 1)^4 - 30*(x2 + x3 - 1)^2*(2*x1 + x2 + x3 - 1)^2 + 35*(2*x1 + x2 + x3 - 1)^4)*((-336)*(x3 - 1)^3 + 840*(x3 - 1)^2*(8*x2 + 4*x3 - 4) - 7560*(x3 - 1)*(2*x2 + x3 - 1)^2 + 4760*(2*x2 + x3 - 1)^3) + 1/32*(20*x3 - 1)*(12*(x2 + x3 - 1)^3 - 30*(x2 + x3 - 1)^2*(4*x1 + 2*x2 + 2*x3 - 2) - 30*(2*x2 + 2*x3 - 2)*(2*x1 + x2 + x3 - 1)^2 + 140*(2*x1 + x2 + x3 - 1)^3)*((-336)*x2*(x3 - 1)^3 - 171*(x3 - 1)^4 + 840*(x3 - 1)^2*(2*x2 + x3 - 1)^2 - 1260*(x3 - 1)*(2*x2 + x3 - 1)^3 + 595*(2*x2 + x3 - 1)^4);
  (-(3*(x2 + x3 - 1)^4 - 30*(x2 + x3 - 1)^2*(2*x1 + x2 + x3 - 1)^2 + 35*(2*x1 + x2 + x3 - 1)^4))*(330*(x3 - 1)^5 + 1170*(x3 - 1)^4*(8*x2 + 4*x3 - 4) - 31620*(x3 - 1)^3*(2*x2 + x3 - 1)^2 + 55080*(x3 - 1)^2*(2*x2 + x3 - 1)^3 - 29070*(x3 - 1)*(2*x2 + x3 - 1)^4)/(64*x3 - 64) - (12*(x2 + x3 - 1)^3 - 30*(x2 + x3 - 1)^2*(4*x1 + 2*x2 + 2*x3 - 2) - 30*(2*x2 + 2*x3 - 2)*(2*x1 + x2 + x3 - 1)^2 + 140*(2*x1 + x2 + x3 - 1)^3)*(330*x2*(x3 - 1)^5 + 114*(x3 - 1)^6 + 1170*(x3 - 1)^4*(2*x2 + x3 - 1)^2 - 5270*(x3 - 1)^3*(2*x2 + x3 - 1)^3 + 6885*(x3 - 1)^2*(2*x2 + x3 - 1)^4 - 2907*(x3 - 1)*(2*x2 + x3 - 1)^5)/(64*x3 - 64);
  1/128*(5848*x3 + 4845*(2*x3 - 1)^4 + 11628*(2*x3 - 1)^3 + 9486*(2*x3 - 1)^2 - 2687)*(150*x1*(x2 + x3 - 1)^4 - 315*(-x2 - x3 + 1)*((-2)*x1 - x2 - x3 + 1)^4 + 90*(x2 + x3 - 1)^5 - 210*(x2 + x3 - 1)^3*((-2)*x1 - x2 - x3 + 1)^2 + 210*(x2 + x3 - 1)^2*((-2)*x1 - x2 - x3 + 1)^3 - 63*((-2)*x1 - x2 - x3 + 1)^5)/(x2 + x3 - 1) - 1/128*(30*x1*(x2 + x3 - 1)^5 + 63*(-x2 - x3 + 1)*((-2)*x1 - x2 - x3 + 1)^5 + 15*(x2 + x3 - 1)^6 + 70*(x2 + x3 - 1)^3*((-2)*x1 - x2 - x3 + 1)^3)*(5848*x3 + 4845*(2*x3 - 1)^4 + 11628*(2*x3 - 1)^3 + 9486*(2*x3 - 1)^2 - 2687)/(x2 + x3 - 1)^2;
  1/32*(13*x2 + x3 - 1)*(1584*x3 + 570*(2*x3 - 1)^3 + 1197*(2*x3 - 1)^2 - 631)*(150*x1*(x2 + x3 - 1)^4 - 315*(-x2 - x3 + 1)*((-2)*x1 - x2 - x3 + 1)^4 + 90*(x2 + x3 - 1)^5 - 210*(x2 + x3 - 1)^3*((-2)*x1 - x2 - x3 + 1)^2 + 210*(x2 + x3 - 1)^2*((-2)*x1 - x2 - x3 + 1)^3 - 63*((-2)*x1 - x2 - x3 + 1)^5)/(x2 + x3 - 1) + 13/32*(1584*x3 + 570*(2*x3 - 1)^3 + 1197*(2*x3 - 1)^2 - 631)*(30*x1*(x2 + x3 - 1)^5 + 63*(-x2 - x3 + 1)*((-2)*x1 - x2 - x3 + 1)^5 + 15*(x2 + x3 - 1)^6 + 70*(x2 + x3 - 1)^3*((-2)*x1 - x2 - x3 + 1)^3)/(x2 + x3 - 1) - 1/32*(13*x2 + x3 - 1)*(1584*x3 + 570*(2*x3 - 1)^3 + 1197*(2*x3 - 1)^2 - 631)*(30*x1*(x2 + x3 - 1)^5 + 63*(-x2 - x3 + 1)*((-2)*x1 - x2 - x3 + 1)^5 + 15*(x2 + x3 - 1)^6 + 70*(x2 + x3 - 1)^3*((-2)*x1 - x2 - x3 + 1)^3)/(x2 + x3 - 1)^2;
  (-1)/64*(308*(x3 - 1)^2 - 105*(x3 - 1)*(8*x2 + 4*x3 - 4))*(304*x3 + 95*(2*x3 - 1)^2 - 93)*(30*x1*(x2 + x3 - 1)^5 + 15*(x2 + x3 - 1)^6 - 70*(x2 + x3 - 1)^3*(2*x1 + x2 + x3 - 1)^3 + 63*(x2 + x3 - 1)*(2*x1 + x2 + x3 - 1)^5)/((x3 - 1)*(x2 + x3 - 1)) - 1/64*(304*x3 + 95*(2*x3 - 1)^2 - 93)*(308*x2*(x3 - 1)^2 + 101*(x3 - 1)^3 - 105*(x3 - 1)*(2*x2 + x3 - 1)^2)*(150*x1*(x2 + x3 - 1)^4 + 90*(x2 + x3 - 1)^5 - 210*(x2 + x3 - 1)^3*(2*x1 + x2 + x3 - 1)^2 - 210*(x2 + x3 - 1)^2*(2*x1 + x2 + x3 - 1)^3 + 315*(x2 + x3 - 1)*(2*x1 + x2 + x3 - 1)^4 + 63*(2*x1 + x2 + x3 - 1)^5)/((x3 - 1)*(x2 + x3 - 1)) + 1/64*(304*x3 + 95*(2*x3 - 1)^2 - 93)*(308*x2*(x3 - 1)^2 + 101*(x3 - 1)^3 - 105*(x3 - 1)*(2*x2 + x3 - 1)^2)*(30*x1*(x2 + x3 - 1)^5 + 15*(x2 + x3 - 1)^6 - 70*(x2 + x3 - 1)^3*(2*x1 + x2 + x3 - 1)^3 + 63*(x2 + x3 - 1)*(2*x1 + x2 + x3 - 1)^5)/((x3 - 1)*(x2 + x3 - 1)^2);
  1/8*(20*x3 - 1)*(195*(x3 - 1)^2 - 165*(x3 - 1)*(8*x2 + 4*x3 - 4) + 510*((-2)*x2 - x3 + 1)^2)*(30*x1*(x2 + x3 - 1)^5 + 63*(-x2 - x3 + 1)*((-2)*x1 - x2 - x3 + 1)^5 + 15*(x2 + x3 - 1)^6 + 70*(x2 + x3 - 1)^3*((-2)*x1 - x2 - x3 + 1)^3)/(x2 + x3 - 1) + 1/8*(20*x3 - 1)*(195*x2*(x3 - 1)^2 + 81*(x3 - 1)^3 - 165*(x3 - 1)*((-2)*x2 - x3 + 1)^2 - 85*((-2)*x2 - x3 + 1)^3)*(150*x1*(x2 + x3 - 1)^4 - 315*(-x2 - x3 + 1)*((-2)*x1 - x2 - x3 + 1)^4 + 90*(x2 + x3 - 1)^5 - 210*(x2 + x3 - 1)^3*((-2)*x1 - x2 - x3 + 1)^2 + 210*(x2 + x3 - 1)^2*((-2)*x1 - x2 - x3 + 1)^3 - 63*((-2)*x1 - x2 - x3 + 1)^5)/(x2 + x3 - 1) - 1/8*(20*x3 - 1)*(30*x1*(x2 + x3 - 1)^5 + 63*(-x2 - x3 + 1)*((-2)*x1 - x2 - x3 + 1)^5 + 15*(x2 + x3 - 1)^6 + 70*(x2 + x3 - 1)^3*((-2)*x1 - x2 - x3 + 1)^3)*(195*x2*(x3 - 1)^2 + 81*(x3 - 1)^3 - 165*(x3 - 1)*((-2)*x2 - x3 + 1)^2 - 85*((-2)*x2 - x3 + 1)^3)/(x2 + x3 - 1)^2;
  1/32*(30*x1*(x2 + x3 - 1)^5 + 63*(-x2 - x3 + 1)*((-2)*x1 - x2 - x3 + 1)^5 + 15*(x2 + x3 - 1)^6 + 70*(x2 + x3 - 1)^3*((-2)*x1 - x2 - x3 + 1)^3)*((-968)*(x3 - 1)^3 + 1734*(x3 - 1)^2*(8*x2 + 4*x3 - 4) - 13464*(x3 - 1)*(2*x2 + x3 - 1)^2 + 7752*(2*x2 + x3 - 1)^3)/(x2 + x3 - 1) + 1/32*((-968)*x2*(x3 - 1)^3 - 455*(x3 - 1)^4 + 1734*(x3 - 1)^2*(2*x2 + x3 - 1)^2 - 2244*(x3 - 1)*(2*x2 + x3 - 1)^3 + 969*(2*x2 + x3 - 1)^4)*(150*x1*(x2 + x3 - 1)^4 - 315*(-x2 - x3 + 1)*((-2)*x1 - x2 - x3 + 1)^4 + 90*(x2 + x3 - 1)^5 - 210*(x2 + x3 - 1)^3*((-2)*x1 - x2 - x3 + 1)^2 + 210*(x2 + x3 - 1)^2*((-2)*x1 - x2 - x3 + 1)^3 - 63*((-2)*x1 - x2 - x3 + 1)^5)/(x2 + x3 - 1) - 1/32*(30*x1*(x2 + x3 - 1)^5 + 63*(-x2 - x3 + 1)*((-2)*x1 - x2 - x3 + 1)^5 + 15*(x2 + x3 - 1)^6 + 70*(x2 + x3 - 1)^3*((-2)*x1 - x2 - x3 + 1)^3)*((-968)*x2*(x3 - 1)^3 - 455*(x3 - 1)^4 + 1734*(x3 - 1)^2*(2*x2 + x3 - 1)^2 - 2244*(x3 - 1)*(2*x2 + x3 - 1)^3 + 969*(2*x2 + x3 - 1)^4)/(x2 + x3 - 1)^2;
  1/64*(1584*x3 + 570*(2*x3 - 1)^3 + 1197*(2*x3 - 1)^2 - 631)*((-30)*(x2 + x3 - 1)^5 + 105*(x2 + x3 - 1)^4*(4*x1 + 2*x2 + 2*x3 - 2) + 420*(x2 + x3 - 1)^3*(2*x1 + x2 + x3 - 1)^2 - 1260*(x2 + x3 - 1)^2*(2*x1 + x2 + x3 - 1)^3 - 315*(2*x2 + 2*x3 - 2)*(2*x1 + x2 + x3 - 1)^4 + 1386*(2*x1 + x2 + x3 - 1)^5);
  1/32*(15*x2 + x3 - 1)*(304*x3 + 95*(2*x3 - 1)^2 - 93)*((-30)*(x2 + x3 - 1)^5 + 105*(x2 + x3 - 1)^4*(4*x1 + 2*x2 + 2*x3 - 2) + 420*(x2 + x3 - 1)^3*(2*x1 + x2 + x3 - 1)^2 - 1260*(x2 + x3 - 1)^2*(2*x1 + x2 + x3 - 1)^3 - 315*(2*x2 + 2*x3 - 2)*(2*x1 + x2 + x3 - 1)^4 + 1386*(2*x1 + x2 + x3 - 1)^5) + 15/32*(304*x3 + 95*(2*x3 - 1)^2 - 93)*((-5)*(x2 + x3 - 1)^6 + 105*(x2 + x3 - 1)^4*(2*x1 + x2 + x3 - 1)^2 - 315*(x2 + x3 - 1)^2*(2*x1 + x2 + x3 - 1)^4 + 231*(2*x1 + x2 + x3 - 1)^6);
  (20*x3 - 1)*(104*(x3 - 1)^2 - 34*(x3 - 1)*(8*x2 + 4*x3 - 4))*(5*(x2 + x3 - 1)^6 - 105*(x2 + x3 - 1)^4*(2*x1 + x2 + x3 - 1)^2 + 315*(x2 + x3 - 1)^2*(2*x1 + x2 + x3 - 1)^4 - 231*(2*x1 + x2 + x3 - 1)^6)/(16*x3 - 16) + (20*x3 - 1)*(104*x2*(x3 - 1)^2 + 33*(x3 - 1)^3 - 34*(x3 - 1)*(2*x2 + x3 - 1)^2)*(30*(x2 + x3 - 1)^5 - 105*(x2 + x3 - 1)^4*(4*x1 + 2*x2 + 2*x3 - 2) - 420*(x2 + x3 - 1)^3*(2*x1 + x2 + x3 - 1)^2 + 1260*(x2 + x3 - 1)^2*(2*x1 + x2 + x3 - 1)^3 + 315*(2*x2 + 2*x3 - 2)*(2*x1 + x2 + x3 - 1)^4 - 1386*(2*x1 + x2 + x3 - 1)^5)/(16*x3 - 16);
  1/128*((-1989)*(-x3 + 1)^2*(8*x2 + 4*x3 - 4) - 5814*(-x3 + 1)*((-2)*x2 - x3 + 1)^2 + 2550*(x3 - 1)^3)*((-5)*(x2 + x3 - 1)^6 + 105*(x2 + x3 - 1)^4*(2*x1 + x2 + x3 - 1)^2 - 315*(x2 + x3 - 1)^2*(2*x1 + x2 + x3 - 1)^4 + 231*(2*x1 + x2 + x3 - 1)^6)/(x3 - 1) + 1/128*(2550*x2*(x3 - 1)^3 - 1989*(-x3 + 1)^2*((-2)*x2 - x3 + 1)^2 + 969*(-x3 + 1)*((-2)*x2 - x3 + 1)^3 + 1028*(x3 - 1)^4)*((-30)*(x2 + x3 - 1)^5 + 105*(x2 + x3 - 1)^4*(4*x1 + 2*x2 + 2*x3 - 2) + 420*(x2 + x3 - 1)^3*(2*x1 + x2 + x3 - 1)^2 - 1260*(x2 + x3 - 1)^2*(2*x1 + x2 + x3 - 1)^3 - 315*(2*x2 + 2*x3 - 2)*(2*x1 + x2 + x3 - 1)^4 + 1386*(2*x1 + x2 + x3 - 1)^5)/(x3 - 1);
  (-(304*x3 + 95*(2*x3 - 1)^2 - 93))*(490*x1*(x2 + x3 - 1)^6 + 280*(x2 + x3 - 1)^7 - 945*(x2 + x3 - 1)^5*(2*x1 + x2 + x3 - 1)^2 - 1575*(x2 + x3 - 1)^4*(2*x1 + x2 + x3 - 1)^3 + 3465*(x2 + x3 - 1)^3*(2*x1 + x2 + x3 - 1)^4 + 2079*(x2 + x3 - 1)^2*(2*x1 + x2 + x3 - 1)^5 - 3003*(x2 + x3 - 1)*(2*x1 + x2 + x3 - 1)^6 - 429*(2*x1 + x2 + x3 - 1)^7)/(32*x2 + 32*x3 - 32) + 32*(304*x3 + 95*(2*x3 - 1)^2 - 93)*(70*x1*(x2 + x3 - 1)^7 + 35*(x2 + x3 - 1)^8 - 315*(x2 + x3 - 1)^5*(2*x1 + x2 + x3 - 1)^3 + 693*(x2 + x3 - 1)^3*(2*x1 + x2 + x3 - 1)^5 - 429*(x2 + x3 - 1)*(2*x1 + x2 + x3 - 1)^7)/(32*x2 + 32*x3 - 32)^2;
  (-(20*x3 - 1))*(17*x2 + x3 - 1)*(490*x1*(x2 + x3 - 1)^6 + 280*(x2 + x3 - 1)^7 - 945*(x2 + x3 - 1)^5*(2*x1 + x2 + x3 - 1)^2 - 1575*(x2 + x3 - 1)^4*(2*x1 + x2 + x3 - 1)^3 + 3465*(x2 + x3 - 1)^3*(2*x1 + x2 + x3 - 1)^4 + 2079*(x2 + x3 - 1)^2*(2*x1 + x2 + x3 - 1)^5 - 3003*(x2 + x3 - 1)*(2*x1 + x2 + x3 - 1)^6 - 429*(2*x1 + x2 + x3 - 1)^7)/(16*x2 + 16*x3 - 16) - 17*(20*x3 - 1)*(70*x1*(x2 + x3 - 1)^7 + 35*(x2 + x3 - 1)^8 - 315*(x2 + x3 - 1)^5*(2*x1 + x2 + x3 - 1)^3 + 693*(x2 + x3 - 1)^3*(2*x1 + x2 + x3 - 1)^5 - 429*(x2 + x3 - 1)*(2*x1 + x2 + x3 - 1)^7)/(16*x2 + 16*x3 - 16) + 16*(20*x3 - 1)*(17*x2 + x3 - 1)*(70*x1*(x2 + x3 - 1)^7 + 35*(x2 + x3 - 1)^8 - 315*(x2 + x3 - 1)^5*(2*x1 + x2 + x3 - 1)^3 + 693*(x2 + x3 - 1)^3*(2*x1 + x2 + x3 - 1)^5 - 429*(x2 + x3 - 1)*(2*x1 + x2 + x3 - 1)^7)/(16*x2 + 16*x3 - 16)^2;
  1/64*(171*(-x3 + 1)*(8*x2 + 4*x3 - 4) + 540*(x3 - 1)^2)*(70*x1*(x2 + x3 - 1)^7 + 315*(-x2 - x3 + 1)^5*(2*x1 + x2 + x3 - 1)^3 + 429*(-x2 - x3 + 1)*(2*x1 + x2 + x3 - 1)^7 + 35*(x2 + x3 - 1)^8 + 693*(x2 + x3 - 1)^3*(2*x1 + x2 + x3 - 1)^5)/((x3 - 1)*(x2 + x3 - 1)) + 1/64*(540*x2*(x3 - 1)^2 + 171*(-x3 + 1)*((-2)*x2 - x3 + 1)^2 + 167*(x3 - 1)^3)*(490*x1*(x2 + x3 - 1)^6 + 945*(-x2 - x3 + 1)^5*(2*x1 + x2 + x3 - 1)^2 - 1575*(-x2 - x3 + 1)^4*(2*x1 + x2 + x3 - 1)^3 + 3003*(-x2 - x3 + 1)*(2*x1 + x2 + x3 - 1)^6 + 280*(x2 + x3 - 1)^7 + 3465*(x2 + x3 - 1)^3*(2*x1 + x2 + x3 - 1)^4 + 2079*(x2 + x3 - 1)^2*(2*x1 + x2 + x3 - 1)^5 - 429*(2*x1 + x2 + x3 - 1)^7)/((x3 - 1)*(x2 + x3 - 1)) - 1/64*(540*x2*(x3 - 1)^2 + 171*(-x3 + 1)*((-2)*x2 - x3 + 1)^2 + 167*(x3 - 1)^3)*(70*x1*(x2 + x3 - 1)^7 + 315*(-x2 - x3 + 1)^5*(2*x1 + x2 + x3 - 1)^3 + 429*(-x2 - x3 + 1)*(2*x1 + x2 + x3 - 1)^7 + 35*(x2 + x3 - 1)^8 + 693*(x2 + x3 - 1)^3*(2*x1 + x2 + x3 - 1)^5)/((x3 - 1)*(x2 + x3 - 1)^2);
  1/128*(20*x3 - 1)*(280*(x2 + x3 - 1)^7 - 1260*(x2 + x3 - 1)^6*(4*x1 + 2*x2 + 2*x3 - 2) - 7560*(x2 + x3 - 1)^5*(2*x1 + x2 + x3 - 1)^2 + 27720*(x2 + x3 - 1)^4*(2*x1 + x2 + x3 - 1)^3 + 27720*(x2 + x3 - 1)^3*(2*x1 + x2 + x3 - 1)^4 - 72072*(x2 + x3 - 1)^2*(2*x1 + x2 + x3 - 1)^5 - 12012*(2*x2 + 2*x3 - 2)*(2*x1 + x2 + x3 - 1)^6 + 51480*(2*x1 + x2 + x3 - 1)^7);
  665/128*(x2 + x3 - 1)^8 - 5985/32*(x2 + x3 - 1)^6*(2*x1 + x2 + x3 - 1)^2 + 65835/64*(x2 + x3 - 1)^4*(2*x1 + x2 + x3 - 1)^4 - 57057/32*(x2 + x3 - 1)^2*(2*x1 + x2 + x3 - 1)^6 + 1/128*(19*x2 + x3 - 1)*(280*(x2 + x3 - 1)^7 - 1260*(x2 + x3 - 1)^6*(4*x1 + 2*x2 + 2*x3 - 2) - 7560*(x2 + x3 - 1)^5*(2*x1 + x2 + x3 - 1)^2 + 27720*(x2 + x3 - 1)^4*(2*x1 + x2 + x3 - 1)^3 + 27720*(x2 + x3 - 1)^3*(2*x1 + x2 + x3 - 1)^4 - 72072*(x2 + x3 - 1)^2*(2*x1 + x2 + x3 - 1)^5 - 12012*(2*x2 + 2*x3 - 2)*(2*x1 + x2 + x3 - 1)^6 + 51480*(2*x1 + x2 + x3 - 1)^7) + 122265/128*(2*x1 + x2 + x3 - 1)^8;
  1/128*(5670*x1*(x2 + x3 - 1)^8 - 90090*(-x2 - x3 + 1)^5*((-2)*x1 - x2 - x3 + 1)^4 - 90090*(-x2 - x3 + 1)^4*((-2)*x1 - x2 - x3 + 1)^5 - 109395*(-x2 - x3 + 1)*((-2)*x1 - x2 - x3 + 1)^8 + 3150*(x2 + x3 - 1)^9 - 13860*(x2 + x3 - 1)^7*((-2)*x1 - x2 - x3 + 1)^2 + 32340*(x2 + x3 - 1)^6*((-2)*x1 - x2 - x3 + 1)^3 - 180180*(x2 + x3 - 1)^3*((-2)*x1 - x2 - x3 + 1)^6 + 77220*(x2 + x3 - 1)^2*((-2)*x1 - x2 - x3 + 1)^7 - 12155*((-2)*x1 - x2 - x3 + 1)^9)/(x2 + x3 - 1) - 1/128*(630*x1*(x2 + x3 - 1)^9 + 18018*(-x2 - x3 + 1)^5*((-2)*x1 - x2 - x3 + 1)^5 + 12155*(-x2 - x3 + 1)*((-2)*x1 - x2 - x3 + 1)^9 + 315*(x2 + x3 - 1)^10 + 4620*(x2 + x3 - 1)^7*((-2)*x1 - x2 - x3 + 1)^3 + 25740*(x2 + x3 - 1)^3*((-2)*x1 - x2 - x3 + 1)^7)/(x2 + x3 - 1)^2;
  0;
  (-3591)/64*x3 + 373065/128*(2*x3 - 1)^9 + 305235/64*(2*x3 - 1)^8 - 43605/32*(2*x3 - 1)^7 - 20349/4*(2*x3 - 1)^6 - 54621/64*(2*x3 - 1)^5 + 48195/32*(2*x3 - 1)^4 + 12915/32*(2*x3 - 1)^3 - 945/8*(2*x3 - 1)^2 + 3717/128;
  (-(4*(x3 - 1)^2 - 5*(x3 - 1)*(8*x2 + 4*x3 - 4)))*(2640*x3 + 159885*(2*x3 - 1)^8 + 348840*(2*x3 - 1)^7 + 135660*(2*x3 - 1)^6 - 162792*(2*x3 - 1)^5 - 117810*(2*x3 - 1)^4 + 4760*(2*x3 - 1)^3 + 14700*(2*x3 - 1)^2 - 1499)/(256*x3 - 256);
  (-(30*(x3 - 1)^3 + 15*(x3 - 1)^2*(8*x2 + 4*x3 - 4) - 210*(x3 - 1)*(2*x2 + x3 - 1)^2))*(182*x3 + 10659*(2*x3 - 1)^7 + 27132*(2*x3 - 1)^6 + 20349*(2*x3 - 1)^5 - 5355*(2*x3 - 1)^3 - 1428*(2*x3 - 1)^2 - 59)/(64*x3 - 64);
  1/512*(24*(x3 - 1)^3 - 42*(x3 - 1)^2*(8*x2 + 4*x3 - 4) - 168*(x3 - 1)*(2*x2 + x3 - 1)^2 + 504*(2*x2 + x3 - 1)^3)*((-10812)*x3 + 74613*(2*x3 - 1)^6 + 203490*(2*x3 - 1)^5 + 188955*(2*x3 - 1)^4 + 58140*(2*x3 - 1)^3 - 6885*(2*x3 - 1)^2 + 5011);
  1/256*(840*(-x3 + 1)^2*((-2)*x2 - x3 + 1)^3 - 2310*(-x3 + 1)*((-2)*x2 - x3 + 1)^4 + 70*(x3 - 1)^5 + 70*(x3 - 1)^4*(8*x2 + 4*x3 - 4) - 1260*(x3 - 1)^3*((-2)*x2 - x3 + 1)^2)*(3150*x3 + 13167*(2*x3 - 1)^5 + 35910*(2*x3 - 1)^4 + 34770*(2*x3 - 1)^3 + 13680*(2*x3 - 1)^2 - 1669)/(x3 - 1);
  (-(11704*x3 + 7315*(2*x3 - 1)^4 + 18620*(2*x3 - 1)^3 + 16530*(2*x3 - 1)^2 - 5209))*(60*(x3 - 1)^6 - 135*(x3 - 1)^5*(8*x2 + 4*x3 - 4) - 1080*(x3 - 1)^4*(2*x2 + x3 - 1)^2 + 3960*(x3 - 1)^3*(2*x2 + x3 - 1)^3 + 1980*(x3 - 1)^2*(2*x2 + x3 - 1)^4 - 5148*(x3 - 1)*(2*x2 + x3 - 1)^5)/(256*x3 - 256);
  (-(1170*x3 + 385*(2*x3 - 1)^3 + 840*(2*x3 - 1)^2 - 457))*(630*(x3 - 1)^7 + 945*(x3 - 1)^6*(8*x2 + 4*x3 - 4) - 20790*(x3 - 1)^5*(2*x2 + x3 - 1)^2 - 27720*(x3 - 1)^4*(2*x2 + x3 - 1)^3 + 90090*(x3 - 1)^3*(2*x2 + x3 - 1)^4 + 36036*(x3 - 1)^2*(2*x2 + x3 - 1)^5 - 90090*(x3 - 1)*(2*x2 + x3 - 1)^6)/(256*x3 - 256);
  1/512*(756*x3 + 231*(2*x3 - 1)^2 - 227)*((-1540)*(-x3 + 1)^6*(8*x2 + 4*x3 - 4) + 18480*(-x3 + 1)^5*(2*x2 + x3 - 1)^2 - 240240*(-x3 + 1)^2*(2*x2 + x3 - 1)^5 + 80080*(-x3 + 1)*(2*x2 + x3 - 1)^6 + 560*(x3 - 1)^7 + 80080*(x3 - 1)^4*(2*x2 + x3 - 1)^3 + 80080*(x3 - 1)^3*(2*x2 + x3 - 1)^4 + 194480*(2*x2 + x3 - 1)^7);
  1/256*(22*x3 - 1)*(144144*(-x3 + 1)^6*((-2)*x2 - x3 + 1)^3 - 540540*(-x3 + 1)^5*((-2)*x2 - x3 + 1)^4 + 350064*(-x3 + 1)^2*((-2)*x2 - x3 + 1)^7 - 831402*(-x3 + 1)*((-2)*x2 - x3 + 1)^8 + 1386*(x3 - 1)^9 + 2772*(x3 - 1)^8*(8*x2 + 4*x3 - 4) - 72072*(x3 - 1)^7*((-2)*x2 - x3 + 1)^2 - 432432*(x3 - 1)^4*((-2)*x2 - x3 + 1)^5 - 1225224*(x3 - 1)^3*((-2)*x2 - x3 + 1)^6)/(x3 - 1);
  1/256*((-4095)*(-x3 + 1)^9*(8*x2 + 4*x3 - 4) - 491400*(-x3 + 1)^6*((-2)*x2 - x3 + 1)^4 + 1670760*(-x3 + 1)^5*((-2)*x2 - x3 + 1)^5 - 755820*(-x3 + 1)^2*((-2)*x2 - x3 + 1)^8 + 1763580*(-x3 + 1)*((-2)*x2 - x3 + 1)^9 - 1260*(x3 - 1)^10 + 65520*(x3 - 1)^8*((-2)*x2 - x3 + 1)^2 + 327600*(x3 - 1)^7*((-2)*x2 - x3 + 1)^3 + 1113840*(x3 - 1)^4*((-2)*x2 - x3 + 1)^6 + 3023280*(x3 - 1)^3*((-2)*x2 - x3 + 1)^7)/(x3 - 1);
  (-1197)/64*x3 + 124355/128*(2*x3 - 1)^9 + 101745/64*(2*x3 - 1)^8 - 14535/32*(2*x3 - 1)^7 - 6783/4*(2*x3 - 1)^6 - 18207/64*(2*x3 - 1)^5 + 16065/32*(2*x3 - 1)^4 + 4305/32*(2*x3 - 1)^3 - 315/8*(2*x3 - 1)^2 + 1239/128;
  1/128*(5*x2 + x3 - 1)*(2640*x3 + 159885*(2*x3 - 1)^8 + 348840*(2*x3 - 1)^7 + 135660*(2*x3 - 1)^6 - 162792*(2*x3 - 1)^5 - 117810*(2*x3 - 1)^4 + 4760*(2*x3 - 1)^3 + 14700*(2*x3 - 1)^2 - 1499) + 5/128*(2*x1 + x2 + x3 - 1)*(2640*x3 + 159885*(2*x3 - 1)^8 + 348840*(2*x3 - 1)^7 + 135660*(2*x3 - 1)^6 - 162792*(2*x3 - 1)^5 - 117810*(2*x3 - 1)^4 + 4760*(2*x3 - 1)^3 + 14700*(2*x3 - 1)^2 - 1499);
  (-(36*(x3 - 1)^2 - 21*(x3 - 1)*(8*x2 + 4*x3 - 4)))*(2*x1 + x2 + x3 - 1)*(182*x3 + 10659*(2*x3 - 1)^7 + 27132*(2*x3 - 1)^6 + 20349*(2*x3 - 1)^5 - 5355*(2*x3 - 1)^3 - 1428*(2*x3 - 1)^2 - 59)/(32*x3 - 32) - (36*x2*(x3 - 1)^2 + 17*(x3 - 1)^3 - 21*(x3 - 1)*(2*x2 + x3 - 1)^2)*(182*x3 + 10659*(2*x3 - 1)^7 + 27132*(2*x3 - 1)^6 + 20349*(2*x3 - 1)^5 - 5355*(2*x3 - 1)^3 - 1428*(2*x3 - 1)^2 - 59)/(32*x3 - 32);
  1/128*((-21)*(x3 - 1)*(8*x2 + 4*x3 - 4) + 126*(2*x2 + x3 - 1)^2)*(2*x1 + x2 + x3 - 1)*((-10812)*x3 + 74613*(2*x3 - 1)^6 + 203490*(2*x3 - 1)^5 + 188955*(2*x3 - 1)^4 + 58140*(2*x3 - 1)^3 - 6885*(2*x3 - 1)^2 + 5011) + 1/128*(2*(x3 - 1)^3 - 21*(x3 - 1)*(2*x2 + x3 - 1)^2 + 21*(2*x2 + x3 - 1)^3)*((-10812)*x3 + 74613*(2*x3 - 1)^6 + 203490*(2*x3 - 1)^5 + 188955*(2*x3 - 1)^4 + 58140*(2*x3 - 1)^3 - 6885*(2*x3 - 1)^2 + 5011);
  1/128*(2*x1 + x2 + x3 - 1)*(88*(x3 - 1)^3 - 18*(x3 - 1)^2*(8*x2 + 4*x3 - 4) - 1080*(x3 - 1)*(2*x2 + x3 - 1)^2 + 1320*(2*x2 + x3 - 1)^3)*(3150*x3 + 13167*(2*x3 - 1)^5 + 35910*(2*x3 - 1)^4 + 34770*(2*x3 - 1)^3 + 13680*(2*x3 - 1)^2 - 1669) + 1/128*(88*x2*(x3 - 1)^3 + 41*(x3 - 1)^4 - 18*(x3 - 1)^2*(2*x2 + x3 - 1)^2 - 180*(x3 - 1)*(2*x2 + x3 - 1)^3 + 165*(2*x2 + x3 - 1)^4)*(3150*x3 + 13167*(2*x3 - 1)^5 + 35910*(2*x3 - 1)^4 + 34770*(2*x3 - 1)^3 + 13680*(2*x3 - 1)^2 - 1669);
  1/512*(2*x1 + x2 + x3 - 1)*(11704*x3 + 7315*(2*x3 - 1)^4 + 18620*(2*x3 - 1)^3 + 16530*(2*x3 - 1)^2 - 5209)*(11880*(-x3 + 1)^2*((-2)*x2 - x3 + 1)^3 - 12870*(-x3 + 1)*((-2)*x2 - x3 + 1)^4 - 90*(x3 - 1)^5 + 630*(x3 - 1)^4*(8*x2 + 4*x3 - 4) - 1980*(x3 - 1)^3*((-2)*x2 - x3 + 1)^2)/(x3 - 1) + 1/512*(11704*x3 + 7315*(2*x3 - 1)^4 + 18620*(2*x3 - 1)^3 + 16530*(2*x3 - 1)^2 - 5209)*((-90)*x2*(x3 - 1)^5 - 70*(-x3 + 1)^6 - 1485*(-x3 + 1)^2*((-2)*x2 - x3 + 1)^4 + 1287*(-x3 + 1)*((-2)*x2 - x3 + 1)^5 + 630*(x3 - 1)^4*((-2)*x2 - x3 + 1)^2 + 330*(x3 - 1)^3*((-2)*x2 - x3 + 1)^3)/(x3 - 1);
  (-(2*x1 + x2 + x3 - 1))*(1170*x3 + 385*(2*x3 - 1)^3 + 840*(2*x3 - 1)^2 - 457)*(780*(x3 - 1)^6 + 165*(x3 - 1)^5*(8*x2 + 4*x3 - 4) - 22440*(x3 - 1)^4*(2*x2 + x3 - 1)^2 + 17160*(x3 - 1)^3*(2*x2 + x3 - 1)^3 + 60060*(x3 - 1)^2*(2*x2 + x3 - 1)^4 - 60060*(x3 - 1)*(2*x2 + x3 - 1)^5)/(128*x3 - 128) - (1170*x3 + 385*(2*x3 - 1)^3 + 840*(2*x3 - 1)^2 - 457)*(780*x2*(x3 - 1)^6 + 365*(x3 - 1)^7 + 165*(x3 - 1)^5*(2*x2 + x3 - 1)^2 - 3740*(x3 - 1)^4*(2*x2 + x3 - 1)^3 + 2145*(x3 - 1)^3*(2*x2 + x3 - 1)^4 + 6006*(x3 - 1)^2*(2*x2 + x3 - 1)^5 - 5005*(x3 - 1)*(2*x2 + x3 - 1)^6)/(128*x3 - 128);
  1/128*(756*x3 + 231*(2*x3 - 1)^2 - 227)*(2*x1 + x2 + x3 - 1)*((-924)*(-x3 + 1)^6*(8*x2 + 4*x3 - 4) + 72072*(-x3 + 1)^2*((-2)*x2 - x3 + 1)^5 - 68068*(-x3 + 1)*((-2)*x2 - x3 + 1)^6 + 154*(x3 - 1)^7 - 40040*(x3 - 1)^4*((-2)*x2 - x3 + 1)^3 - 30030*(x3 - 1)^3*((-2)*x2 - x3 + 1)^4)/(x3 - 1) + 1/128*(756*x3 + 231*(2*x3 - 1)^2 - 227)*(154*x2*(x3 - 1)^7 - 924*(-x3 + 1)^6*((-2)*x2 - x3 + 1)^2 - 6006*(-x3 + 1)^2*((-2)*x2 - x3 + 1)^6 + 4862*(-x3 + 1)*((-2)*x2 - x3 + 1)^7 + 98*(x3 - 1)^8 + 5005*(x3 - 1)^4*((-2)*x2 - x3 + 1)^4 + 3003*(x3 - 1)^3*((-2)*x2 - x3 + 1)^5)/(x3 - 1);
  1/128*(22*x3 - 1)*(2*x1 + x2 + x3 - 1)*(82992*(-x3 + 1)^5*(2*x2 + x3 - 1)^2 - 371280*(-x3 + 1)^2*(2*x2 + x3 - 1)^5 + 668304*(-x3 + 1)*(2*x2 + x3 - 1)^6 + 1680*(x3 - 1)^7 + 1092*(x3 - 1)^6*(8*x2 + 4*x3 - 4) + 21840*(x3 - 1)^4*(2*x2 + x3 - 1)^3 + 502320*(x3 - 1)^3*(2*x2 + x3 - 1)^4 + 604656*(2*x2 + x3 - 1)^7) + 1/128*(22*x3 - 1)*(1680*x2*(x3 - 1)^7 + 13832*(-x3 + 1)^5*(2*x2 + x3 - 1)^3 - 30940*(-x3 + 1)^2*(2*x2 + x3 - 1)^6 + 47736*(-x3 + 1)*(2*x2 + x3 - 1)^7 + 791*(x3 - 1)^8 + 1092*(x3 - 1)^6*(2*x2 + x3 - 1)^2 + 2730*(x3 - 1)^4*(2*x2 + x3 - 1)^4 + 50232*(x3 - 1)^3*(2*x2 + x3 - 1)^5 + 37791*(2*x2 + x3 - 1)^8);
  (-(2*x1 + x2 + x3 - 1))*(1638*(x3 - 1)^9 - 9828*(x3 - 1)^8*(8*x2 + 4*x3 - 4) - 32760*(x3 - 1)^7*(2*x2 + x3 - 1)^2 + 720720*(x3 - 1)^6*(2*x2 + x3 - 1)^3 - 278460*(x3 - 1)^5*(2*x2 + x3 - 1)^4 - 2895984*(x3 - 1)^4*(2*x2 + x3 - 1)^5 + 2116296*(x3 - 1)^3*(2*x2 + x3 - 1)^6 + 3023280*(x3 - 1)^2*(2*x2 + x3 - 1)^7 - 2645370*(x3 - 1)*(2*x2 + x3 - 1)^8)/(256*x3 - 256) - (1638*x2*(x3 - 1)^9 + 966*(x3 - 1)^10 - 9828*(x3 - 1)^8*(2*x2 + x3 - 1)^2 - 5460*(x3 - 1)^7*(2*x2 + x3 - 1)^3 + 90090*(x3 - 1)^6*(2*x2 + x3 - 1)^4 - 27846*(x3 - 1)^5*(2*x2 + x3 - 1)^5 - 241332*(x3 - 1)^4*(2*x2 + x3 - 1)^6 + 151164*(x3 - 1)^3*(2*x2 + x3 - 1)^7 + 188955*(x3 - 1)^2*(2*x2 + x3 - 1)^8 - 146965*(x3 - 1)*(2*x2 + x3 - 1)^9)/(256*x3 - 256);
  1/256*(12*x1 + 4*x2 + 4*x3 - 4)*(2640*x3 + 159885*(2*x3 - 1)^8 + 348840*(2*x3 - 1)^7 + 135660*(2*x3 - 1)^6 - 162792*(2*x3 - 1)^5 - 117810*(2*x3 - 1)^4 + 4760*(2*x3 - 1)^3 + 14700*(2*x3 - 1)^2 - 1499);
  7/16*(-(x2 + x3 - 1)^2 + 3*(2*x1 + x2 + x3 - 1)^2)*(182*x3 + 10659*(2*x3 - 1)^7 + 27132*(2*x3 - 1)^6 + 20349*(2*x3 - 1)^5 - 5355*(2*x3 - 1)^3 - 1428*(2*x3 - 1)^2 - 59) + 1/16*(7*x2 + x3 - 1)*(12*x1 + 4*x2 + 4*x3 - 4)*(182*x3 + 10659*(2*x3 - 1)^7 + 27132*(2*x3 - 1)^6 + 20349*(2*x3 - 1)^5 - 5355*(2*x3 - 1)^3 - 1428*(2*x3 - 1)^2 - 59);
  (20*(x3 - 1)^2 - 9*(x3 - 1)*(8*x2 + 4*x3 - 4))*((x2 + x3 - 1)^2 - 3*(2*x1 + x2 + x3 - 1)^2)*((-10812)*x3 + 74613*(2*x3 - 1)^6 + 203490*(2*x3 - 1)^5 + 188955*(2*x3 - 1)^4 + 58140*(2*x3 - 1)^3 - 6885*(2*x3 - 1)^2 + 5011)/(128*x3 - 128) + (20*x2*(x3 - 1)^2 + 8*(x3 - 1)^3 - 9*(x3 - 1)*(2*x2 + x3 - 1)^2)*((-12)*x1 - 4*x2 - 4*x3 + 4)*((-10812)*x3 + 74613*(2*x3 - 1)^6 + 203490*(2*x3 - 1)^5 + 188955*(2*x3 - 1)^4 + 58140*(2*x3 - 1)^3 - 6885*(2*x3 - 1)^2 + 5011)/(128*x3 - 128);
  1/256*(-(x2 + x3 - 1)^2 + 3*(2*x1 + x2 + x3 - 1)^2)*((-225)*(-x3 + 1)^2*(8*x2 + 4*x3 - 4) - 990*(-x3 + 1)*((-2)*x2 - x3 + 1)^2 + 126*(x3 - 1)^3)*(3150*x3 + 13167*(2*x3 - 1)^5 + 35910*(2*x3 - 1)^4 + 34770*(2*x3 - 1)^3 + 13680*(2*x3 - 1)^2 - 1669)/(x3 - 1) + 1/256*(12*x1 + 4*x2 + 4*x3 - 4)*(126*x2*(x3 - 1)^3 - 225*(-x3 + 1)^2*((-2)*x2 - x3 + 1)^2 + 165*(-x3 + 1)*((-2)*x2 - x3 + 1)^3 + 68*(x3 - 1)^4)*(3150*x3 + 13167*(2*x3 - 1)^5 + 35910*(2*x3 - 1)^4 + 34770*(2*x3 - 1)^3 + 13680*(2*x3 - 1)^2 - 1669)/(x3 - 1);
  1/512*(-(x2 + x3 - 1)^2 + 3*(2*x1 + x2 + x3 - 1)^2)*(200*(x3 - 1)^3 + 330*(x3 - 1)^2*(8*x2 + 4*x3 - 4) - 6600*(x3 - 1)*(2*x2 + x3 - 1)^2 + 5720*(2*x2 + x3 - 1)^3)*(11704*x3 + 7315*(2*x3 - 1)^4 + 18620*(2*x3 - 1)^3 + 16530*(2*x3 - 1)^2 - 5209) + 1/512*(12*x1 + 4*x2 + 4*x3 - 4)*(11704*x3 + 7315*(2*x3 - 1)^4 + 18620*(2*x3 - 1)^3 + 16530*(2*x3 - 1)^2 - 5209)*(200*x2*(x3 - 1)^3 + 71*(x3 - 1)^4 + 330*(x3 - 1)^2*(2*x2 + x3 - 1)^2 - 1100*(x3 - 1)*(2*x2 + x3 - 1)^3 + 715*(2*x2 + x3 - 1)^4);
  ((x2 + x3 - 1)^2 - 3*(2*x1 + x2 + x3 - 1)^2)*(1170*x3 + 385*(2*x3 - 1)^3 + 840*(2*x3 - 1)^2 - 457)*(770*(x3 - 1)^5 - 990*(x3 - 1)^4*(8*x2 + 4*x3 - 4) - 8580*(x3 - 1)^3*(2*x2 + x3 - 1)^2 + 40040*(x3 - 1)^2*(2*x2 + x3 - 1)^3 - 30030*(x3 - 1)*(2*x2 + x3 - 1)^4)/(128*x3 - 128) + ((-12)*x1 - 4*x2 - 4*x3 + 4)*(1170*x3 + 385*(2*x3 - 1)^3 + 840*(2*x3 - 1)^2 - 457)*(770*x2*(x3 - 1)^5 + 386*(x3 - 1)^6 - 990*(x3 - 1)^4*(2*x2 + x3 - 1)^2 - 1430*(x3 - 1)^3*(2*x2 + x3 - 1)^3 + 5005*(x3 - 1)^2*(2*x2 + x3 - 1)^4 - 3003*(x3 - 1)*(2*x2 + x3 - 1)^5)/(128*x3 - 128);
  1/128*((x2 + x3 - 1)^2 - 3*(2*x1 + x2 + x3 - 1)^2)*(756*x3 + 231*(2*x3 - 1)^2 - 227)*(96*(x3 - 1)^5 + 780*(x3 - 1)^4*(8*x2 + 4*x3 - 4) - 10920*(x3 - 1)^3*(2*x2 + x3 - 1)^2 - 10920*(x3 - 1)^2*(2*x2 + x3 - 1)^3 + 54600*(x3 - 1)*(2*x2 + x3 - 1)^4 - 37128*(2*x2 + x3 - 1)^5) + 1/128*(756*x3 + 231*(2*x3 - 1)^2 - 227)*((-12)*x1 - 4*x2 - 4*x3 + 4)*(96*x2*(x3 - 1)^5 + 23*(x3 - 1)^6 + 780*(x3 - 1)^4*(2*x2 + x3 - 1)^2 - 1820*(x3 - 1)^3*(2*x2 + x3 - 1)^3 - 1365*(x3 - 1)^2*(2*x2 + x3 - 1)^4 + 5460*(x3 - 1)*(2*x2 + x3 - 1)^5 - 3094*(2*x2 + x3 - 1)^6);
  1/64*(22*x3 - 1)*(-(x2 + x3 - 1)^2 + 3*(2*x1 + x2 + x3 - 1)^2)*((-819)*(-x3 + 1)^6*(8*x2 + 4*x3 - 4) - 46410*(-x3 + 1)^3*((-2)*x2 - x3 + 1)^4 + 278460*(-x3 + 1)^2*((-2)*x2 - x3 + 1)^5 - 176358*(-x3 + 1)*((-2)*x2 - x3 + 1)^6 + 910*(x3 - 1)^7 - 30030*(x3 - 1)^5*((-2)*x2 - x3 + 1)^2 - 91000*(x3 - 1)^4*((-2)*x2 - x3 + 1)^3)/(x3 - 1) + 1/64*(22*x3 - 1)*(12*x1 + 4*x2 + 4*x3 - 4)*(910*x2*(x3 - 1)^7 - 819*(-x3 + 1)^6*((-2)*x2 - x3 + 1)^2 + 4641*(-x3 + 1)^3*((-2)*x2 - x3 + 1)^5 - 23205*(-x3 + 1)^2*((-2)*x2 - x3 + 1)^6 + 12597*(-x3 + 1)*((-2)*x2 - x3 + 1)^7 + 448*(x3 - 1)^8 + 5005*(x3 - 1)^5*((-2)*x2 - x3 + 1)^3 + 11375*(x3 - 1)^4*((-2)*x2 - x3 + 1)^4)/(x3 - 1);
  1/256*(-(x2 + x3 - 1)^2 + 3*(2*x1 + x2 + x3 - 1)^2)*(102480*(-x3 + 1)^5*(2*x2 + x3 - 1)^2 - 447440*(-x3 + 1)^4*(2*x2 + x3 - 1)^3 + 2713200*(-x3 + 1)*(2*x2 + x3 - 1)^6 + 112*(x3 - 1)^7 + 9660*(x3 - 1)^6*(8*x2 + 4*x3 - 4) + 1285200*(x3 - 1)^3*(2*x2 + x3 - 1)^4 + 325584*(x3 - 1)^2*(2*x2 + x3 - 1)^5 + 1627920*(2*x2 + x3 - 1)^7) + 1/256*(12*x1 + 4*x2 + 4*x3 - 4)*(112*x2*(x3 - 1)^7 - 119*(-x3 + 1)^8 + 17080*(-x3 + 1)^5*(2*x2 + x3 - 1)^3 - 55930*(-x3 + 1)^4*(2*x2 + x3 - 1)^4 + 193800*(-x3 + 1)*(2*x2 + x3 - 1)^7 + 9660*(x3 - 1)^6*(2*x2 + x3 - 1)^2 + 128520*(x3 - 1)^3*(2*x2 + x3 - 1)^5 + 27132*(x3 - 1)^2*(2*x2 + x3 - 1)^6 + 101745*(2*x2 + x3 - 1)^8);
  (-(18*x1*(x2 + x3 - 1)^2 + 12*(x2 + x3 - 1)^3 - 15*(x2 + x3 - 1)*(2*x1 + x2 + x3 - 1)^2 - 5*(2*x1 + x2 + x3 - 1)^3))*(182*x3 + 10659*(2*x3 - 1)^7 + 27132*(2*x3 - 1)^6 + 20349*(2*x3 - 1)^5 - 5355*(2*x3 - 1)^3 - 1428*(2*x3 - 1)^2 - 59)/(16*x2 + 16*x3 - 16) + 16*(6*x1*(x2 + x3 - 1)^3 + 3*(x2 + x3 - 1)^4 - 5*(x2 + x3 - 1)*(2*x1 + x2 + x3 - 1)^3)*(182*x3 + 10659*(2*x3 - 1)^7 + 27132*(2*x3 - 1)^6 + 20349*(2*x3 - 1)^5 - 5355*(2*x3 - 1)^3 - 1428*(2*x3 - 1)^2 - 59)/(16*x2 + 16*x3 - 16)^2;
  1/128*(9*x2 + x3 - 1)*(18*x1*(x2 + x3 - 1)^2 + 15*(-x2 - x3 + 1)*(2*x1 + x2 + x3 - 1)^2 + 12*(x2 + x3 - 1)^3 - 5*(2*x1 + x2 + x3 - 1)^3)*((-10812)*x3 + 74613*(2*x3 - 1)^6 + 203490*(2*x3 - 1)^5 + 188955*(2*x3 - 1)^4 + 58140*(2*x3 - 1)^3 - 6885*(2*x3 - 1)^2 + 5011)/(-x2 - x3 + 1) + 9/128*(6*x1*(x2 + x3 - 1)^3 + 5*(-x2 - x3 + 1)*(2*x1 + x2 + x3 - 1)^3 + 3*(x2 + x3 - 1)^4)*((-10812)*x3 + 74613*(2*x3 - 1)^6 + 203490*(2*x3 - 1)^5 + 188955*(2*x3 - 1)^4 + 58140*(2*x3 - 1)^3 - 6885*(2*x3 - 1)^2 + 5011)/(-x2 - x3 + 1) + 1/128*(9*x2 + x3 - 1)*(6*x1*(x2 + x3 - 1)^3 + 5*(-x2 - x3 + 1)*(2*x1 + x2 + x3 - 1)^3 + 3*(x2 + x3 - 1)^4)*((-10812)*x3 + 74613*(2*x3 - 1)^6 + 203490*(2*x3 - 1)^5 + 188955*(2*x3 - 1)^4 + 58140*(2*x3 - 1)^3 - 6885*(2*x3 - 1)^2 + 5011)/(-x2 - x3 + 1)^2;
  1/128*(55*(-x3 + 1)*(8*x2 + 4*x3 - 4) + 140*(x3 - 1)^2)*(6*x1*(x2 + x3 - 1)^3 + 5*(-x2 - x3 + 1)*(2*x1 + x2 + x3 - 1)^3 + 3*(x2 + x3 - 1)^4)*(3150*x3 + 13167*(2*x3 - 1)^5 + 35910*(2*x3 - 1)^4 + 34770*(2*x3 - 1)^3 + 13680*(2*x3 - 1)^2 - 1669)/((x3 - 1)*(x2 + x3 - 1)) + 1/128*(140*x2*(x3 - 1)^2 + 55*(-x3 + 1)*((-2)*x2 - x3 + 1)^2 + 51*(x3 - 1)^3)*(18*x1*(x2 + x3 - 1)^2 + 15*(-x2 - x3 + 1)*(2*x1 + x2 + x3 - 1)^2 + 12*(x2 + x3 - 1)^3 - 5*(2*x1 + x2 + x3 - 1)^3)*(3150*x3 + 13167*(2*x3 - 1)^5 + 35910*(2*x3 - 1)^4 + 34770*(2*x3 - 1)^3 + 13680*(2*x3 - 1)^2 - 1669)/((x3 - 1)*(x2 + x3 - 1)) - 1/128*(6*x1*(x2 + x3 - 1)^3 + 5*(-x2 - x3 + 1)*(2*x1 + x2 + x3 - 1)^3 + 3*(x2 + x3 - 1)^4)*(140*x2*(x3 - 1)^2 + 55*(-x3 + 1)*((-2)*x2 - x3 + 1)^2 + 51*(x3 - 1)^3)*(3150*x3 + 13167*(2*x3 - 1)^5 + 35910*(2*x3 - 1)^4 + 34770*(2*x3 - 1)^3 + 13680*(2*x3 - 1)^2 - 1669)/((x3 - 1)*(x2 + x3 - 1)^2);
  (-(6*x1*(x2 + x3 - 1)^3 + 3*(x2 + x3 - 1)^4 - 5*(x2 + x3 - 1)*(2*x1 + x2 + x3 - 1)^3))*(198*(x3 - 1)^2 - 231*(x3 - 1)*(8*x2 + 4*x3 - 4) + 858*(2*x2 + x3 - 1)^2)*(11704*x3 + 7315*(2*x3 - 1)^4 + 18620*(2*x3 - 1)^3 + 16530*(2*x3 - 1)^2 - 5209)/(128*x2 + 128*x3 - 128) - (18*x1*(x2 + x3 - 1)^2 + 12*(x2 + x3 - 1)^3 - 15*(x2 + x3 - 1)*(2*x1 + x2 + x3 - 1)^2 - 5*(2*x1 + x2 + x3 - 1)^3)*(198*x2*(x3 - 1)^2 + 92*(x3 - 1)^3 - 231*(x3 - 1)*(2*x2 + x3 - 1)^2 + 143*(2*x2 + x3 - 1)^3)*(11704*x3 + 7315*(2*x3 - 1)^4 + 18620*(2*x3 - 1)^3 + 16530*(2*x3 - 1)^2 - 5209)/(128*x2 + 128*x3 - 128) + 128*(6*x1*(x2 + x3 - 1)^3 + 3*(x2 + x3 - 1)^4 - 5*(x2 + x3 - 1)*(2*x1 + x2 + x3 - 1)^3)*(198*x2*(x3 - 1)^2 + 92*(x3 - 1)^3 - 231*(x3 - 1)*(2*x2 + x3 - 1)^2 + 143*(2*x2 + x3 - 1)^3)*(11704*x3 + 7315*(2*x3 - 1)^4 + 18620*(2*x3 - 1)^3 + 16530*(2*x3 - 1)^2 - 5209)/(128*x2 + 128*x3 - 128)^2;
  (6*x1*(x2 + x3 - 1)^3 + 3*(x2 + x3 - 1)^4 - 5*(x2 + x3 - 1)*(2*x1 + x2 + x3 - 1)^3)*(1170*x3 + 385*(2*x3 - 1)^3 + 840*(2*x3 - 1)^2 - 457)*(168*(x3 - 1)^3 - 1326*(x3 - 1)^2*(8*x2 + 4*x3 - 4) + 15288*(x3 - 1)*(2*x2 + x3 - 1)^2 - 10920*(2*x2 + x3 - 1)^3)/(64*x2 + 64*x3 - 64) + (1170*x3 + 385*(2*x3 - 1)^3 + 840*(2*x3 - 1)^2 - 457)*(18*x1*(x2 + x3 - 1)^2 + 12*(x2 + x3 - 1)^3 - 15*(x2 + x3 - 1)*(2*x1 + x2 + x3 - 1)^2 - 5*(2*x1 + x2 + x3 - 1)^3)*(168*x2*(x3 - 1)^3 + 127*(x3 - 1)^4 - 1326*(x3 - 1)^2*(2*x2 + x3 - 1)^2 + 2548*(x3 - 1)*(2*x2 + x3 - 1)^3 - 1365*(2*x2 + x3 - 1)^4)/(64*x2 + 64*x3 - 64) - 64*(6*x1*(x2 + x3 - 1)^3 + 3*(x2 + x3 - 1)^4 - 5*(x2 + x3 - 1)*(2*x1 + x2 + x3 - 1)^3)*(1170*x3 + 385*(2*x3 - 1)^3 + 840*(2*x3 - 1)^2 - 457)*(168*x2*(x3 - 1)^3 + 127*(x3 - 1)^4 - 1326*(x3 - 1)^2*(2*x2 + x3 - 1)^2 + 2548*(x3 - 1)*(2*x2 + x3 - 1)^3 - 1365*(2*x2 + x3 - 1)^4)/(64*x2 + 64*x3 - 64)^2;
  1/64*(756*x3 + 231*(2*x3 - 1)^2 - 227)*(6*x1*(x2 + x3 - 1)^3 + 5*(-x2 - x3 + 1)*(2*x1 + x2 + x3 - 1)^3 + 3*(x2 + x3 - 1)^4)*(10920*(-x3 + 1)^3*(2*x2 + x3 - 1)^2 + 15470*(-x3 + 1)*(2*x2 + x3 - 1)^4 + 390*(x3 - 1)^5 + 25480*(x3 - 1)^2*(2*x2 + x3 - 1)^3)/((x3 - 1)*(x2 + x3 - 1)) + 1/64*(756*x3 + 231*(2*x3 - 1)^2 - 227)*(18*x1*(x2 + x3 - 1)^2 + 15*(-x2 - x3 + 1)*(2*x1 + x2 + x3 - 1)^2 + 12*(x2 + x3 - 1)^3 - 5*(2*x1 + x2 + x3 - 1)^3)*(390*x2*(x3 - 1)^5 + 1820*(-x3 + 1)^3*(2*x2 + x3 - 1)^3 + 1547*(-x3 + 1)*(2*x2 + x3 - 1)^5 + 174*(x3 - 1)^6 + 3185*(x3 - 1)^2*(2*x2 + x3 - 1)^4)/((x3 - 1)*(x2 + x3 - 1)) - 1/64*(756*x3 + 231*(2*x3 - 1)^2 - 227)*(6*x1*(x2 + x3 - 1)^3 + 5*(-x2 - x3 + 1)*(2*x1 + x2 + x3 - 1)^3 + 3*(x2 + x3 - 1)^4)*(390*x2*(x3 - 1)^5 + 1820*(-x3 + 1)^3*(2*x2 + x3 - 1)^3 + 1547*(-x3 + 1)*(2*x2 + x3 - 1)^5 + 174*(x3 - 1)^6 + 3185*(x3 - 1)^2*(2*x2 + x3 - 1)^4)/((x3 - 1)*(x2 + x3 - 1)^2);
  (-(22*x3 - 1))*(6*x1*(x2 + x3 - 1)^3 + 3*(x2 + x3 - 1)^4 - 5*(x2 + x3 - 1)*(2*x1 + x2 + x3 - 1)^3)*(588*(x3 - 1)^5 - 1995*(x3 - 1)^4*(8*x2 + 4*x3 - 4) + 5880*(x3 - 1)^3*(2*x2 + x3 - 1)^2 + 71400*(x3 - 1)^2*(2*x2 + x3 - 1)^3 - 149940*(x3 - 1)*(2*x2 + x3 - 1)^4 + 81396*(2*x2 + x3 - 1)^5)/(32*x2 + 32*x3 - 32) - (22*x3 - 1)*(18*x1*(x2 + x3 - 1)^2 + 12*(x2 + x3 - 1)^3 - 15*(x2 + x3 - 1)*(2*x1 + x2 + x3 - 1)^2 - 5*(2*x1 + x2 + x3 - 1)^3)*(588*x2*(x3 - 1)^5 + 317*(x3 - 1)^6 - 1995*(x3 - 1)^4*(2*x2 + x3 - 1)^2 + 980*(x3 - 1)^3*(2*x2 + x3 - 1)^3 + 8925*(x3 - 1)^2*(2*x2 + x3 - 1)^4 - 14994*(x3 - 1)*(2*x2 + x3 - 1)^5 + 6783*(2*x2 + x3 - 1)^6)/(32*x2 + 32*x3 - 32) + 32*(22*x3 - 1)*(6*x1*(x2 + x3 - 1)^3 + 3*(x2 + x3 - 1)^4 - 5*(x2 + x3 - 1)*(2*x1 + x2 + x3 - 1)^3)*(588*x2*(x3 - 1)^5 + 317*(x3 - 1)^6 - 1995*(x3 - 1)^4*(2*x2 + x3 - 1)^2 + 980*(x3 - 1)^3*(2*x2 + x3 - 1)^3 + 8925*(x3 - 1)^2*(2*x2 + x3 - 1)^4 - 14994*(x3 - 1)*(2*x2 + x3 - 1)^5 + 6783*(2*x2 + x3 - 1)^6)/(32*x2 + 32*x3 - 32)^2;
  (-1)/32*(6*x1*(x2 + x3 - 1)^3 + 3*(x2 + x3 - 1)^4 - 5*(x2 + x3 - 1)*(2*x1 + x2 + x3 - 1)^3)*(630*(x3 - 1)^7 + 1155*(x3 - 1)^6*(8*x2 + 4*x3 - 4) - 46410*(x3 - 1)^5*(2*x2 + x3 - 1)^2 + 42840*(x3 - 1)^4*(2*x2 + x3 - 1)^3 + 203490*(x3 - 1)^3*(2*x2 + x3 - 1)^4 - 406980*(x3 - 1)^2*(2*x2 + x3 - 1)^5 + 203490*(x3 - 1)*(2*x2 + x3 - 1)^6)/((x3 - 1)*(x2 + x3 - 1)) - 1/32*(18*x1*(x2 + x3 - 1)^2 + 12*(x2 + x3 - 1)^3 - 15*(x2 + x3 - 1)*(2*x1 + x2 + x3 - 1)^2 - 5*(2*x1 + x2 + x3 - 1)^3)*(630*x2*(x3 - 1)^7 + 272*(x3 - 1)^8 + 1155*(x3 - 1)^6*(2*x2 + x3 - 1)^2 - 7735*(x3 - 1)^5*(2*x2 + x3 - 1)^3 + 5355*(x3 - 1)^4*(2*x2 + x3 - 1)^4 + 20349*(x3 - 1)^3*(2*x2 + x3 - 1)^5 - 33915*(x3 - 1)^2*(2*x2 + x3 - 1)^6 + 14535*(x3 - 1)*(2*x2 + x3 - 1)^7)/((x3 - 1)*(x2 + x3 - 1)) + 1/32*(6*x1*(x2 + x3 - 1)^3 + 3*(x2 + x3 - 1)^4 - 5*(x2 + x3 - 1)*(2*x1 + x2 + x3 - 1)^3)*(630*x2*(x3 - 1)^7 + 272*(x3 - 1)^8 + 1155*(x3 - 1)^6*(2*x2 + x3 - 1)^2 - 7735*(x3 - 1)^5*(2*x2 + x3 - 1)^3 + 5355*(x3 - 1)^4*(2*x2 + x3 - 1)^4 + 20349*(x3 - 1)^3*(2*x2 + x3 - 1)^5 - 33915*(x3 - 1)^2*(2*x2 + x3 - 1)^6 + 14535*(x3 - 1)*(2*x2 + x3 - 1)^7)/((x3 - 1)*(x2 + x3 - 1)^2);
  1/512*(12*(x2 + x3 - 1)^3 - 30*(x2 + x3 - 1)^2*(4*x1 + 2*x2 + 2*x3 - 2) - 30*(2*x2 + 2*x3 - 2)*(2*x1 + x2 + x3 - 1)^2 + 140*(2*x1 + x2 + x3 - 1)^3)*((-10812)*x3 + 74613*(2*x3 - 1)^6 + 203490*(2*x3 - 1)^5 + 188955*(2*x3 - 1)^4 + 58140*(2*x3 - 1)^3 - 6885*(2*x3 - 1)^2 + 5011);
  1/128*(11*x2 + x3 - 1)*(12*(x2 + x3 - 1)^3 - 30*(x2 + x3 - 1)^2*(4*x1 + 2*x2 + 2*x3 - 2) - 30*(2*x2 + 2*x3 - 2)*(2*x1 + x2 + x3 - 1)^2 + 140*(2*x1 + x2 + x3 - 1)^3)*(3150*x3 + 13167*(2*x3 - 1)^5 + 35910*(2*x3 - 1)^4 + 34770*(2*x3 - 1)^3 + 13680*(2*x3 - 1)^2 - 1669) + 11/128*(3*(x2 + x3 - 1)^4 - 30*(x2 + x3 - 1)^2*(2*x1 + x2 + x3 - 1)^2 + 35*(2*x1 + x2 + x3 - 1)^4)*(3150*x3 + 13167*(2*x3 - 1)^5 + 35910*(2*x3 - 1)^4 + 34770*(2*x3 - 1)^3 + 13680*(2*x3 - 1)^2 - 1669);
  (-(108*(x3 - 1)^2 - 39*(x3 - 1)*(8*x2 + 4*x3 - 4)))*(3*(x2 + x3 - 1)^4 - 30*(x2 + x3 - 1)^2*(2*x1 + x2 + x3 - 1)^2 + 35*(2*x1 + x2 + x3 - 1)^4)*(11704*x3 + 7315*(2*x3 - 1)^4 + 18620*(2*x3 - 1)^3 + 16530*(2*x3 - 1)^2 - 5209)/(256*x3 - 256) - (108*x2*(x3 - 1)^2 + 37*(x3 - 1)^3 - 39*(x3 - 1)*(2*x2 + x3 - 1)^2)*(12*(x2 + x3 - 1)^3 - 30*(x2 + x3 - 1)^2*(4*x1 + 2*x2 + 2*x3 - 2) - 30*(2*x2 + 2*x3 - 2)*(2*x1 + x2 + x3 - 1)^2 + 140*(2*x1 + x2 + x3 - 1)^3)*(11704*x3 + 7315*(2*x3 - 1)^4 + 18620*(2*x3 - 1)^3 + 16530*(2*x3 - 1)^2 - 5209)/(256*x3 - 256);
  1/128*((-819)*(-x3 + 1)^2*(8*x2 + 4*x3 - 4) - 2730*(-x3 + 1)*((-2)*x2 - x3 + 1)^2 + 858*(x3 - 1)^3)*(3*(x2 + x3 - 1)^4 - 30*(x2 + x3 - 1)^2*(2*x1 + x2 + x3 - 1)^2 + 35*(2*x1 + x2 + x3 - 1)^4)*(1170*x3 + 385*(2*x3 - 1)^3 + 840*(2*x3 - 1)^2 - 457)/(x3 - 1) + 1/128*(1170*x3 + 385*(2*x3 - 1)^3 + 840*(2*x3 - 1)^2 - 457)*(858*x2*(x3 - 1)^3 - 819*(-x3 + 1)^2*((-2)*x2 - x3 + 1)^2 + 455*(-x3 + 1)*((-2)*x2 - x3 + 1)^3 + 372*(x3 - 1)^4)*(12*(x2 + x3 - 1)^3 - 30*(x2 + x3 - 1)^2*(4*x1 + 2*x2 + 2*x3 - 2) - 30*(2*x2 + 2*x3 - 2)*(2*x1 + x2 + x3 - 1)^2 + 140*(2*x1 + x2 + x3 - 1)^3)/(x3 - 1);
  1/128*(756*x3 + 231*(2*x3 - 1)^2 - 227)*(3*(x2 + x3 - 1)^4 - 30*(x2 + x3 - 1)^2*(2*x1 + x2 + x3 - 1)^2 + 35*(2*x1 + x2 + x3 - 1)^4)*((-336)*(x3 - 1)^3 + 840*(x3 - 1)^2*(8*x2 + 4*x3 - 4) - 7560*(x3 - 1)*(2*x2 + x3 - 1)^2 + 4760*(2*x2 + x3 - 1)^3) + 1/128*(756*x3 + 231*(2*x3 - 1)^2 - 227)*(12*(x2 + x3 - 1)^3 - 30*(x2 + x3 - 1)^2*(4*x1 + 2*x2 + 2*x3 - 2) - 30*(2*x2 + 2*x3 - 2)*(2*x1 + x2 + x3 - 1)^2 + 140*(2*x1 + x2 + x3 - 1)^3)*((-336)*x2*(x3 - 1)^3 - 171*(x3 - 1)^4 + 840*(x3 - 1)^2*(2*x2 + x3 - 1)^2 - 1260*(x3 - 1)*(2*x2 + x3 - 1)^3 + 595*(2*x2 + x3 - 1)^4);
  (-(22*x3 - 1))*(3*(x2 + x3 - 1)^4 - 30*(x2 + x3 - 1)^2*(2*x1 + x2 + x3 - 1)^2 + 35*(2*x1 + x2 + x3 - 1)^4)*(330*(x3 - 1)^5 + 1170*(x3 - 1)^4*(8*x2 + 4*x3 - 4) - 31620*(x3 - 1)^3*(2*x2 + x3 - 1)^2 + 55080*(x3 - 1)^2*(2*x2 + x3 - 1)^3 - 29070*(x3 - 1)*(2*x2 + x3 - 1)^4)/(64*x3 - 64) - (22*x3 - 1)*(12*(x2 + x3 - 1)^3 - 30*(x2 + x3 - 1)^2*(4*x1 + 2*x2 + 2*x3 - 2) - 30*(2*x2 + 2*x3 - 2)*(2*x1 + x2 + x3 - 1)^2 + 140*(2*x1 + x2 + x3 - 1)^3)*(330*x2*(x3 - 1)^5 + 114*(x3 - 1)^6 + 1170*(x3 - 1)^4*(2*x2 + x3 - 1)^2 - 5270*(x3 - 1)^3*(2*x2 + x3 - 1)^3 + 6885*(x3 - 1)^2*(2*x2 + x3 - 1)^4 - 2907*(x3 - 1)*(2*x2 + x3 - 1)^5)/(64*x3 - 64);
  1/64*(3*(x2 + x3 - 1)^4 - 30*(x2 + x3 - 1)^2*(2*x1 + x2 + x3 - 1)^2 + 35*(2*x1 + x2 + x3 - 1)^4)*(972*(x3 - 1)^5 - 1275*(x3 - 1)^4*(8*x2 + 4*x3 - 4) - 18360*(x3 - 1)^3*(2*x2 + x3 - 1)^2 + 116280*(x3 - 1)^2*(2*x2 + x3 - 1)^3 - 174420*(x3 - 1)*(2*x2 + x3 - 1)^4 + 81396*(2*x2 + x3 - 1)^5) + 1/64*(12*(x2 + x3 - 1)^3 - 30*(x2 + x3 - 1)^2*(4*x1 + 2*x2 + 2*x3 - 2) - 30*(2*x2 + 2*x3 - 2)*(2*x1 + x2 + x3 - 1)^2 + 140*(2*x1 + x2 + x3 - 1)^3)*(972*x2*(x3 - 1)^5 + 467*(x3 - 1)^6 - 1275*(x3 - 1)^4*(2*x2 + x3 - 1)^2 - 3060*(x3 - 1)^3*(2*x2 + x3 - 1)^3 + 14535*(x3 - 1)^2*(2*x2 + x3 - 1)^4 - 17442*(x3 - 1)*(2*x2 + x3 - 1)^5 + 6783*(2*x2 + x3 - 1)^6);
  1/128*(3150*x3 + 13167*(2*x3 - 1)^5 + 35910*(2*x3 - 1)^4 + 34770*(2*x3 - 1)^3 + 13680*(2*x3 - 1)^2 - 1669)*(150*x1*(x2 + x3 - 1)^4 - 315*(-x2 - x3 + 1)*((-2)*x1 - x2 - x3 + 1)^4 + 90*(x2 + x3 - 1)^5 - 210*(x2 + x3 - 1)^3*((-2)*x1 - x2 - x3 + 1)^2 + 210*(x2 + x3 - 1)^2*((-2)*x1 - x2 - x3 + 1)^3 - 63*((-2)*x1 - x2 - x3 + 1)^5)/(x2 + x3 - 1) - 1/128*(30*x1*(x2 + x3 - 1)^5 + 63*(-x2 - x3 + 1)*((-2)*x1 - x2 - x3 + 1)^5 + 15*(x2 + x3 - 1)^6 + 70*(x2 + x3 - 1)^3*((-2)*x1 - x2 - x3 + 1)^3)*(3150*x3 + 13167*(2*x3 - 1)^5 + 35910*(2*x3 - 1)^4 + 34770*(2*x3 - 1)^3 + 13680*(2*x3 - 1)^2 - 1669)/(x2 + x3 - 1)^2;
  1/128*(13*x2 + x3 - 1)*(11704*x3 + 7315*(2*x3 - 1)^4 + 18620*(2*x3 - 1)^3 + 16530*(2*x3 - 1)^2 - 5209)*(150*x1*(x2 + x3 - 1)^4 - 315*(-x2 - x3 + 1)*((-2)*x1 - x2 - x3 + 1)^4 + 90*(x2 + x3 - 1)^5 - 210*(x2 + x3 - 1)^3*((-2)*x1 - x2 - x3 + 1)^2 + 210*(x2 + x3 - 1)^2*((-2)*x1 - x2 - x3 + 1)^3 - 63*((-2)*x1 - x2 - x3 + 1)^5)/(x2 + x3 - 1) + 13/128*(30*x1*(x2 + x3 - 1)^5 + 63*(-x2 - x3 + 1)*((-2)*x1 - x2 - x3 + 1)^5 + 15*(x2 + x3 - 1)^6 + 70*(x2 + x3 - 1)^3*((-2)*x1 - x2 - x3 + 1)^3)*(11704*x3 + 7315*(2*x3 - 1)^4 + 18620*(2*x3 - 1)^3 + 16530*(2*x3 - 1)^2 - 5209)/(x2 + x3 - 1) - 1/128*(13*x2 + x3 - 1)*(30*x1*(x2 + x3 - 1)^5 + 63*(-x2 - x3 + 1)*((-2)*x1 - x2 - x3 + 1)^5 + 15*(x2 + x3 - 1)^6 + 70*(x2 + x3 - 1)^3*((-2)*x1 - x2 - x3 + 1)^3)*(11704*x3 + 7315*(2*x3 - 1)^4 + 18620*(2*x3 - 1)^3 + 16530*(2*x3 - 1)^2 - 5209)/(x2 + x3 - 1)^2;
  (-1)/64*(308*(x3 - 1)^2 - 105*(x3 - 1)*(8*x2 + 4*x3 - 4))*(1170*x3 + 385*(2*x3 - 1)^3 + 840*(2*x3 - 1)^2 - 457)*(30*x1*(x2 + x3 - 1)^5 + 15*(x2 + x3 - 1)^6 - 70*(x2 + x3 - 1)^3*(2*x1 + x2 + x3 - 1)^3 + 63*(x2 + x3 - 1)*(2*x1 + x2 + x3 - 1)^5)/((x3 - 1)*(x2 + x3 - 1)) - 1/64*(308*x2*(x3 - 1)^2 + 101*(x3 - 1)^3 - 105*(x3 - 1)*(2*x2 + x3 - 1)^2)*(1170*x3 + 385*(2*x3 - 1)^3 + 840*(2*x3 - 1)^2 - 457)*(150*x1*(x2 + x3 - 1)^4 + 90*(x2 + x3 - 1)^5 - 210*(x2 + x3 - 1)^3*(2*x1 + x2 + x3 - 1)^2 - 210*(x2 + x3 - 1)^2*(2*x1 + x2 + x3 - 1)^3 + 315*(x2 + x3 - 1)*(2*x1 + x2 + x3 - 1)^4 + 63*(2*x1 + x2 + x3 - 1)^5)/((x3 - 1)*(x2 + x3 - 1)) + 1/64*(308*x2*(x3 - 1)^2 + 101*(x3 - 1)^3 - 105*(x3 - 1)*(2*x2 + x3 - 1)^2)*(1170*x3 + 385*(2*x3 - 1)^3 + 840*(2*x3 - 1)^2 - 457)*(30*x1*(x2 + x3 - 1)^5 + 15*(x2 + x3 - 1)^6 - 70*(x2 + x3 - 1)^3*(2*x1 + x2 + x3 - 1)^3 + 63*(x2 + x3 - 1)*(2*x1 + x2 + x3 - 1)^5)/((x3 - 1)*(x2 + x3 - 1)^2);
  1/32*(756*x3 + 231*(2*x3 - 1)^2 - 227)*(195*(x3 - 1)^2 - 165*(x3 - 1)*(8*x2 + 4*x3 - 4) + 510*((-2)*x2 - x3 + 1)^2)*(30*x1*(x2 + x3 - 1)^5 + 63*(-x2 - x3 + 1)*((-2)*x1 - x2 - x3 + 1)^5 + 15*(x2 + x3 - 1)^6 + 70*(x2 + x3 - 1)^3*((-2)*x1 - x2 - x3 + 1)^3)/(x2 + x3 - 1) + 1/32*(756*x3 + 231*(2*x3 - 1)^2 - 227)*(195*x2*(x3 - 1)^2 + 81*(x3 - 1)^3 - 165*(x3 - 1)*((-2)*x2 - x3 + 1)^2 - 85*((-2)*x2 - x3 + 1)^3)*(150*x1*(x2 + x3 - 1)^4 - 315*(-x2 - x3 + 1)*((-2)*x1 - x2 - x3 + 1)^4 + 90*(x2 + x3 - 1)^5 - 210*(x2 + x3 - 1)^3*((-2)*x1 - x2 - x3 + 1)^2 + 210*(x2 + x3 - 1)^2*((-2)*x1 - x2 - x3 + 1)^3 - 63*((-2)*x1 - x2 - x3 + 1)^5)/(x2 + x3 - 1) - 1/32*(756*x3 + 231*(2*x3 - 1)^2 - 227)*(30*x1*(x2 + x3 - 1)^5 + 63*(-x2 - x3 + 1)*((-2)*x1 - x2 - x3 + 1)^5 + 15*(x2 + x3 - 1)^6 + 70*(x2 + x3 - 1)^3*((-2)*x1 - x2 - x3 + 1)^3)*(195*x2*(x3 - 1)^2 + 81*(x3 - 1)^3 - 165*(x3 - 1)*((-2)*x2 - x3 + 1)^2 - 85*((-2)*x2 - x3 + 1)^3)/(x2 + x3 - 1)^2;
  1/32*(22*x3 - 1)*(30*x1*(x2 + x3 - 1)^5 + 63*(-x2 - x3 + 1)*((-2)*x1 - x2 - x3 + 1)^5 + 15*(x2 + x3 - 1)^6 + 70*(x2 + x3 - 1)^3*((-2)*x1 - x2 - x3 + 1)^3)*((-968)*(x3 - 1)^3 + 1734*(x3 - 1)^2*(8*x2 + 4*x3 - 4) - 13464*(x3 - 1)*(2*x2 + x3 - 1)^2 + 7752*(2*x2 + x3 - 1)^3)/(x2 + x3 - 1) + 1/32*(22*x3 - 1)*((-968)*x2*(x3 - 1)^3 - 455*(x3 - 1)^4 + 1734*(x3 - 1)^2*(2*x2 + x3 - 1)^2 - 2244*(x3 - 1)*(2*x2 + x3 - 1)^3 + 969*(2*x2 + x3 - 1)^4)*(150*x1*(x2 + x3 - 1)^4 - 315*(-x2 - x3 + 1)*((-2)*x1 - x2 - x3 + 1)^4 + 90*(x2 + x3 - 1)^5 - 210*(x2 + x3 - 1)^3*((-2)*x1 - x2 - x3 + 1)^2 + 210*(x2 + x3 - 1)^2*((-2)*x1 - x2 - x3 + 1)^3 - 63*((-2)*x1 - x2 - x3 + 1)^5)/(x2 + x3 - 1) - 1/32*(22*x3 - 1)*(30*x1*(x2 + x3 - 1)^5 + 63*(-x2 - x3 + 1)*((-2)*x1 - x2 - x3 + 1)^5 + 15*(x2 + x3 - 1)^6 + 70*(x2 + x3 - 1)^3*((-2)*x1 - x2 - x3 + 1)^3)*((-968)*x2*(x3 - 1)^3 - 455*(x3 - 1)^4 + 1734*(x3 - 1)^2*(2*x2 + x3 - 1)^2 - 2244*(x3 - 1)*(2*x2 + x3 - 1)^3 + 969*(2*x2 + x3 - 1)^4)/(x2 + x3 - 1)^2;
  1/256*(30*x1*(x2 + x3 - 1)^5 + 15*(x2 + x3 - 1)^6 - 70*(x2 + x3 - 1)^3*(2*x1 + x2 + x3 - 1)^3 + 63*(x2 + x3 - 1)*(2*x1 + x2 + x3 - 1)^5)*(2210*(x3 - 1)^5 - 16830*(x3 - 1)^4*(8*x2 + 4*x3 - 4) + 290700*(x3 - 1)^3*(2*x2 + x3 - 1)^2 - 426360*(x3 - 1)^2*(2*x2 + x3 - 1)^3 + 203490*(x3 - 1)*(2*x2 + x3 - 1)^4)/((x3 - 1)*(x2 + x3 - 1)) + 1/256*(150*x1*(x2 + x3 - 1)^4 + 90*(x2 + x3 - 1)^5 - 210*(x2 + x3 - 1)^3*(2*x1 + x2 + x3 - 1)^2 - 210*(x2 + x3 - 1)^2*(2*x1 + x2 + x3 - 1)^3 + 315*(x2 + x3 - 1)*(2*x1 + x2 + x3 - 1)^4 + 63*(2*x1 + x2 + x3 - 1)^5)*(2210*x2*(x3 - 1)^5 + 1358*(x3 - 1)^6 - 16830*(x3 - 1)^4*(2*x2 + x3 - 1)^2 + 48450*(x3 - 1)^3*(2*x2 + x3 - 1)^3 - 53295*(x3 - 1)^2*(2*x2 + x3 - 1)^4 + 20349*(x3 - 1)*(2*x2 + x3 - 1)^5)/((x3 - 1)*(x2 + x3 - 1)) - 1/256*(30*x1*(x2 + x3 - 1)^5 + 15*(x2 + x3 - 1)^6 - 70*(x2 + x3 - 1)^3*(2*x1 + x2 + x3 - 1)^3 + 63*(x2 + x3 - 1)*(2*x1 + x2 + x3 - 1)^5)*(2210*x2*(x3 - 1)^5 + 1358*(x3 - 1)^6 - 16830*(x3 - 1)^4*(2*x2 + x3 - 1)^2 + 48450*(x3 - 1)^3*(2*x2 + x3 - 1)^3 - 53295*(x3 - 1)^2*(2*x2 + x3 - 1)^4 + 20349*(x3 - 1)*(2*x2 + x3 - 1)^5)/((x3 - 1)*(x2 + x3 - 1)^2);
  1/256*(11704*x3 + 7315*(2*x3 - 1)^4 + 18620*(2*x3 - 1)^3 + 16530*(2*x3 - 1)^2 - 5209)*((-30)*(x2 + x3 - 1)^5 + 105*(x2 + x3 - 1)^4*(4*x1 + 2*x2 + 2*x3 - 2) + 420*(x2 + x3 - 1)^3*(2*x1 + x2 + x3 - 1)^2 - 1260*(x2 + x3 - 1)^2*(2*x1 + x2 + x3 - 1)^3 - 315*(2*x2 + 2*x3 - 2)*(2*x1 + x2 + x3 - 1)^4 + 1386*(2*x1 + x2 + x3 - 1)^5);
  1/32*(15*x2 + x3 - 1)*(1170*x3 + 385*(2*x3 - 1)^3 + 840*(2*x3 - 1)^2 - 457)*((-30)*(x2 + x3 - 1)^5 + 105*(x2 + x3 - 1)^4*(4*x1 + 2*x2 + 2*x3 - 2) + 420*(x2 + x3 - 1)^3*(2*x1 + x2 + x3 - 1)^2 - 1260*(x2 + x3 - 1)^2*(2*x1 + x2 + x3 - 1)^3 - 315*(2*x2 + 2*x3 - 2)*(2*x1 + x2 + x3 - 1)^4 + 1386*(2*x1 + x2 + x3 - 1)^5) + 15/32*(1170*x3 + 385*(2*x3 - 1)^3 + 840*(2*x3 - 1)^2 - 457)*((-5)*(x2 + x3 - 1)^6 + 105*(x2 + x3 - 1)^4*(2*x1 + x2 + x3 - 1)^2 - 315*(x2 + x3 - 1)^2*(2*x1 + x2 + x3 - 1)^4 + 231*(2*x1 + x2 + x3 - 1)^6);
  (104*(x3 - 1)^2 - 34*(x3 - 1)*(8*x2 + 4*x3 - 4))*(756*x3 + 231*(2*x3 - 1)^2 - 227)*(5*(x2 + x3 - 1)^6 - 105*(x2 + x3 - 1)^4*(2*x1 + x2 + x3 - 1)^2 + 315*(x2 + x3 - 1)^2*(2*x1 + x2 + x3 - 1)^4 - 231*(2*x1 + x2 + x3 - 1)^6)/(64*x3 - 64) + (756*x3 + 231*(2*x3 - 1)^2 - 227)*(104*x2*(x3 - 1)^2 + 33*(x3 - 1)^3 - 34*(x3 - 1)*(2*x2 + x3 - 1)^2)*(30*(x2 + x3 - 1)^5 - 105*(x2 + x3 - 1)^4*(4*x1 + 2*x2 + 2*x3 - 2) - 420*(x2 + x3 - 1)^3*(2*x1 + x2 + x3 - 1)^2 + 1260*(x2 + x3 - 1)^2*(2*x1 + x2 + x3 - 1)^3 + 315*(2*x2 + 2*x3 - 2)*(2*x1 + x2 + x3 - 1)^4 - 1386*(2*x1 + x2 + x3 - 1)^5)/(64*x3 - 64);
  1/128*(22*x3 - 1)*((-1989)*(-x3 + 1)^2*(8*x2 + 4*x3 - 4) - 5814*(-x3 + 1)*((-2)*x2 - x3 + 1)^2 + 2550*(x3 - 1)^3)*((-5)*(x2 + x3 - 1)^6 + 105*(x2 + x3 - 1)^4*(2*x1 + x2 + x3 - 1)^2 - 315*(x2 + x3 - 1)^2*(2*x1 + x2 + x3 - 1)^4 + 231*(2*x1 + x2 + x3 - 1)^6)/(x3 - 1) + 1/128*(22*x3 - 1)*(2550*x2*(x3 - 1)^3 - 1989*(-x3 + 1)^2*((-2)*x2 - x3 + 1)^2 + 969*(-x3 + 1)*((-2)*x2 - x3 + 1)^3 + 1028*(x3 - 1)^4)*((-30)*(x2 + x3 - 1)^5 + 105*(x2 + x3 - 1)^4*(4*x1 + 2*x2 + 2*x3 - 2) + 420*(x2 + x3 - 1)^3*(2*x1 + x2 + x3 - 1)^2 - 1260*(x2 + x3 - 1)^2*(2*x1 + x2 + x3 - 1)^3 - 315*(2*x2 + 2*x3 - 2)*(2*x1 + x2 + x3 - 1)^4 + 1386*(2*x1 + x2 + x3 - 1)^5)/(x3 - 1);
  1/256*((-8424)*(x3 - 1)^3 + 12654*(x3 - 1)^2*(8*x2 + 4*x3 - 4) - 88920*(x3 - 1)*(2*x2 + x3 - 1)^2 + 47880*(2*x2 + x3 - 1)^3)*((-5)*(x2 + x3 - 1)^6 + 105*(x2 + x3 - 1)^4*(2*x1 + x2 + x3 - 1)^2 - 315*(x2 + x3 - 1)^2*(2*x1 + x2 + x3 - 1)^4 + 231*(2*x1 + x2 + x3 - 1)^6) + 1/256*((-8424)*x2*(x3 - 1)^3 - 3803*(x3 - 1)^4 + 12654*(x3 - 1)^2*(2*x2 + x3 - 1)^2 - 14820*(x3 - 1)*(2*x2 + x3 - 1)^3 + 5985*(2*x2 + x3 - 1)^4)*((-30)*(x2 + x3 - 1)^5 + 105*(x2 + x3 - 1)^4*(4*x1 + 2*x2 + 2*x3 - 2) + 420*(x2 + x3 - 1)^3*(2*x1 + x2 + x3 - 1)^2 - 1260*(x2 + x3 - 1)^2*(2*x1 + x2 + x3 - 1)^3 - 315*(2*x2 + 2*x3 - 2)*(2*x1 + x2 + x3 - 1)^4 + 1386*(2*x1 + x2 + x3 - 1)^5);
  (-(1170*x3 + 385*(2*x3 - 1)^3 + 840*(2*x3 - 1)^2 - 457))*(490*x1*(x2 + x3 - 1)^6 + 280*(x2 + x3 - 1)^7 - 945*(x2 + x3 - 1)^5*(2*x1 + x2 + x3 - 1)^2 - 1575*(x2 + x3 - 1)^4*(2*x1 + x2 + x3 - 1)^3 + 3465*(x2 + x3 - 1)^3*(2*x1 + x2 + x3 - 1)^4 + 2079*(x2 + x3 - 1)^2*(2*x1 + x2 + x3 - 1)^5 - 3003*(x2 + x3 - 1)*(2*x1 + x2 + x3 - 1)^6 - 429*(2*x1 + x2 + x3 - 1)^7)/(32*x2 + 32*x3 - 32) + 32*(1170*x3 + 385*(2*x3 - 1)^3 + 840*(2*x3 - 1)^2 - 457)*(70*x1*(x2 + x3 - 1)^7 + 35*(x2 + x3 - 1)^8 - 315*(x2 + x3 - 1)^5*(2*x1 + x2 + x3 - 1)^3 + 693*(x2 + x3 - 1)^3*(2*x1 + x2 + x3 - 1)^5 - 429*(x2 + x3 - 1)*(2*x1 + x2 + x3 - 1)^7)/(32*x2 + 32*x3 - 32)^2;
  (-(17*x2 + x3 - 1))*(756*x3 + 231*(2*x3 - 1)^2 - 227)*(490*x1*(x2 + x3 - 1)^6 + 280*(x2 + x3 - 1)^7 - 945*(x2 + x3 - 1)^5*(2*x1 + x2 + x3 - 1)^2 - 1575*(x2 + x3 - 1)^4*(2*x1 + x2 + x3 - 1)^3 + 3465*(x2 + x3 - 1)^3*(2*x1 + x2 + x3 - 1)^4 + 2079*(x2 + x3 - 1)^2*(2*x1 + x2 + x3 - 1)^5 - 3003*(x2 + x3 - 1)*(2*x1 + x2 + x3 - 1)^6 - 429*(2*x1 + x2 + x3 - 1)^7)/(64*x2 + 64*x3 - 64) + 64*(17*x2 + x3 - 1)*(756*x3 + 231*(2*x3 - 1)^2 - 227)*(70*x1*(x2 + x3 - 1)^7 + 35*(x2 + x3 - 1)^8 - 315*(x2 + x3 - 1)^5*(2*x1 + x2 + x3 - 1)^3 + 693*(x2 + x3 - 1)^3*(2*x1 + x2 + x3 - 1)^5 - 429*(x2 + x3 - 1)*(2*x1 + x2 + x3 - 1)^7)/(64*x2 + 64*x3 - 64)^2 - 17*(756*x3 + 231*(2*x3 - 1)^2 - 227)*(70*x1*(x2 + x3 - 1)^7 + 35*(x2 + x3 - 1)^8 - 315*(x2 + x3 - 1)^5*(2*x1 + x2 + x3 - 1)^3 + 693*(x2 + x3 - 1)^3*(2*x1 + x2 + x3 - 1)^5 - 429*(x2 + x3 - 1)*(2*x1 + x2 + x3 - 1)^7)/(64*x2 + 64*x3 - 64);
  1/64*(22*x3 - 1)*(171*(-x3 + 1)*(8*x2 + 4*x3 - 4) + 540*(x3 - 1)^2)*(70*x1*(x2 + x3 - 1)^7 + 315*(-x2 - x3 + 1)^5*(2*x1 + x2 + x3 - 1)^3 + 429*(-x2 - x3 + 1)*(2*x1 + x2 + x3 - 1)^7 + 35*(x2 + x3 - 1)^8 + 693*(x2 + x3 - 1)^3*(2*x1 + x2 + x3 - 1)^5)/((x3 - 1)*(x2 + x3 - 1)) + 1/64*(22*x3 - 1)*(540*x2*(x3 - 1)^2 + 171*(-x3 + 1)*((-2)*x2 - x3 + 1)^2 + 167*(x3 - 1)^3)*(490*x1*(x2 + x3 - 1)^6 + 945*(-x2 - x3 + 1)^5*(2*x1 + x2 + x3 - 1)^2 - 1575*(-x2 - x3 + 1)^4*(2*x1 + x2 + x3 - 1)^3 + 3003*(-x2 - x3 + 1)*(2*x1 + x2 + x3 - 1)^6 + 280*(x2 + x3 - 1)^7 + 3465*(x2 + x3 - 1)^3*(2*x1 + x2 + x3 - 1)^4 + 2079*(x2 + x3 - 1)^2*(2*x1 + x2 + x3 - 1)^5 - 429*(2*x1 + x2 + x3 - 1)^7)/((x3 - 1)*(x2 + x3 - 1)) - 1/64*(22*x3 - 1)*(540*x2*(x3 - 1)^2 + 171*(-x3 + 1)*((-2)*x2 - x3 + 1)^2 + 167*(x3 - 1)^3)*(70*x1*(x2 + x3 - 1)^7 + 315*(-x2 - x3 + 1)^5*(2*x1 + x2 + x3 - 1)^3 + 429*(-x2 - x3 + 1)*(2*x1 + x2 + x3 - 1)^7 + 35*(x2 + x3 - 1)^8 + 693*(x2 + x3 - 1)^3*(2*x1 + x2 + x3 - 1)^5)/((x3 - 1)*(x2 + x3 - 1)^2);
  (-(1938*(x3 - 1)^2 - 1425*(x3 - 1)*(8*x2 + 4*x3 - 4) + 3990*(2*x2 + x3 - 1)^2))*(70*x1*(x2 + x3 - 1)^7 + 35*(x2 + x3 - 1)^8 - 315*(x2 + x3 - 1)^5*(2*x1 + x2 + x3 - 1)^3 + 693*(x2 + x3 - 1)^3*(2*x1 + x2 + x3 - 1)^5 - 429*(x2 + x3 - 1)*(2*x1 + x2 + x3 - 1)^7)/(64*x2 + 64*x3 - 64) - (1938*x2*(x3 - 1)^2 + 764*(x3 - 1)^3 - 1425*(x3 - 1)*(2*x2 + x3 - 1)^2 + 665*(2*x2 + x3 - 1)^3)*(490*x1*(x2 + x3 - 1)^6 + 280*(x2 + x3 - 1)^7 - 945*(x2 + x3 - 1)^5*(2*x1 + x2 + x3 - 1)^2 - 1575*(x2 + x3 - 1)^4*(2*x1 + x2 + x3 - 1)^3 + 3465*(x2 + x3 - 1)^3*(2*x1 + x2 + x3 - 1)^4 + 2079*(x2 + x3 - 1)^2*(2*x1 + x2 + x3 - 1)^5 - 3003*(x2 + x3 - 1)*(2*x1 + x2 + x3 - 1)^6 - 429*(2*x1 + x2 + x3 - 1)^7)/(64*x2 + 64*x3 - 64) + 64*(1938*x2*(x3 - 1)^2 + 764*(x3 - 1)^3 - 1425*(x3 - 1)*(2*x2 + x3 - 1)^2 + 665*(2*x2 + x3 - 1)^3)*(70*x1*(x2 + x3 - 1)^7 + 35*(x2 + x3 - 1)^8 - 315*(x2 + x3 - 1)^5*(2*x1 + x2 + x3 - 1)^3 + 693*(x2 + x3 - 1)^3*(2*x1 + x2 + x3 - 1)^5 - 429*(x2 + x3 - 1)*(2*x1 + x2 + x3 - 1)^7)/(64*x2 + 64*x3 - 64)^2;
  1/512*(756*x3 + 231*(2*x3 - 1)^2 - 227)*(280*(x2 + x3 - 1)^7 - 1260*(x2 + x3 - 1)^6*(4*x1 + 2*x2 + 2*x3 - 2) - 7560*(x2 + x3 - 1)^5*(2*x1 + x2 + x3 - 1)^2 + 27720*(x2 + x3 - 1)^4*(2*x1 + x2 + x3 - 1)^3 + 27720*(x2 + x3 - 1)^3*(2*x1 + x2 + x3 - 1)^4 - 72072*(x2 + x3 - 1)^2*(2*x1 + x2 + x3 - 1)^5 - 12012*(2*x2 + 2*x3 - 2)*(2*x1 + x2 + x3 - 1)^6 + 51480*(2*x1 + x2 + x3 - 1)^7);
  1/128*(22*x3 - 1)*(19*x2 + x3 - 1)*(280*(x2 + x3 - 1)^7 - 1260*(x2 + x3 - 1)^6*(4*x1 + 2*x2 + 2*x3 - 2) - 7560*(x2 + x3 - 1)^5*(2*x1 + x2 + x3 - 1)^2 + 27720*(x2 + x3 - 1)^4*(2*x1 + x2 + x3 - 1)^3 + 27720*(x2 + x3 - 1)^3*(2*x1 + x2 + x3 - 1)^4 - 72072*(x2 + x3 - 1)^2*(2*x1 + x2 + x3 - 1)^5 - 12012*(2*x2 + 2*x3 - 2)*(2*x1 + x2 + x3 - 1)^6 + 51480*(2*x1 + x2 + x3 - 1)^7) + 19/128*(22*x3 - 1)*(35*(x2 + x3 - 1)^8 - 1260*(x2 + x3 - 1)^6*(2*x1 + x2 + x3 - 1)^2 + 6930*(x2 + x3 - 1)^4*(2*x1 + x2 + x3 - 1)^4 - 12012*(x2 + x3 - 1)^2*(2*x1 + x2 + x3 - 1)^6 + 6435*(2*x1 + x2 + x3 - 1)^8);
  (-(340*(x3 - 1)^2 - 105*(x3 - 1)*(8*x2 + 4*x3 - 4)))*(35*(x2 + x3 - 1)^8 - 1260*(x2 + x3 - 1)^6*(2*x1 + x2 + x3 - 1)^2 + 6930*(x2 + x3 - 1)^4*(2*x1 + x2 + x3 - 1)^4 - 12012*(x2 + x3 - 1)^2*(2*x1 + x2 + x3 - 1)^6 + 6435*(2*x1 + x2 + x3 - 1)^8)/(256*x3 - 256) - (340*x2*(x3 - 1)^2 + 103*(x3 - 1)^3 - 105*(x3 - 1)*(2*x2 + x3 - 1)^2)*(280*(x2 + x3 - 1)^7 - 1260*(x2 + x3 - 1)^6*(4*x1 + 2*x2 + 2*x3 - 2) - 7560*(x2 + x3 - 1)^5*(2*x1 + x2 + x3 - 1)^2 + 27720*(x2 + x3 - 1)^4*(2*x1 + x2 + x3 - 1)^3 + 27720*(x2 + x3 - 1)^3*(2*x1 + x2 + x3 - 1)^4 - 72072*(x2 + x3 - 1)^2*(2*x1 + x2 + x3 - 1)^5 - 12012*(2*x2 + 2*x3 - 2)*(2*x1 + x2 + x3 - 1)^6 + 51480*(2*x1 + x2 + x3 - 1)^7)/(256*x3 - 256);
  1/128*(22*x3 - 1)*(5670*x1*(x2 + x3 - 1)^8 - 90090*(-x2 - x3 + 1)^5*((-2)*x1 - x2 - x3 + 1)^4 - 90090*(-x2 - x3 + 1)^4*((-2)*x1 - x2 - x3 + 1)^5 - 109395*(-x2 - x3 + 1)*((-2)*x1 - x2 - x3 + 1)^8 + 3150*(x2 + x3 - 1)^9 - 13860*(x2 + x3 - 1)^7*((-2)*x1 - x2 - x3 + 1)^2 + 32340*(x2 + x3 - 1)^6*((-2)*x1 - x2 - x3 + 1)^3 - 180180*(x2 + x3 - 1)^3*((-2)*x1 - x2 - x3 + 1)^6 + 77220*(x2 + x3 - 1)^2*((-2)*x1 - x2 - x3 + 1)^7 - 12155*((-2)*x1 - x2 - x3 + 1)^9)/(x2 + x3 - 1) - 1/128*(22*x3 - 1)*(630*x1*(x2 + x3 - 1)^9 + 18018*(-x2 - x3 + 1)^5*((-2)*x1 - x2 - x3 + 1)^5 + 12155*(-x2 - x3 + 1)*((-2)*x1 - x2 - x3 + 1)^9 + 315*(x2 + x3 - 1)^10 + 4620*(x2 + x3 - 1)^7*((-2)*x1 - x2 - x3 + 1)^3 + 25740*(x2 + x3 - 1)^3*((-2)*x1 - x2 - x3 + 1)^7)/(x2 + x3 - 1)^2;
  1/128*(21*x2 + x3 - 1)*(5670*x1*(x2 + x3 - 1)^8 - 90090*(-x2 - x3 + 1)^5*((-2)*x1 - x2 - x3 + 1)^4 - 90090*(-x2 - x3 + 1)^4*((-2)*x1 - x2 - x3 + 1)^5 - 109395*(-x2 - x3 + 1)*((-2)*x1 - x2 - x3 + 1)^8 + 3150*(x2 + x3 - 1)^9 - 13860*(x2 + x3 - 1)^7*((-2)*x1 - x2 - x3 + 1)^2 + 32340*(x2 + x3 - 1)^6*((-2)*x1 - x2 - x3 + 1)^3 - 180180*(x2 + x3 - 1)^3*((-2)*x1 - x2 - x3 + 1)^6 + 77220*(x2 + x3 - 1)^2*((-2)*x1 - x2 - x3 + 1)^7 - 12155*((-2)*x1 - x2 - x3 + 1)^9)/(x2 + x3 - 1) + 21/128*(630*x1*(x2 + x3 - 1)^9 + 18018*(-x2 - x3 + 1)^5*((-2)*x1 - x2 - x3 + 1)^5 + 12155*(-x2 - x3 + 1)*((-2)*x1 - x2 - x3 + 1)^9 + 315*(x2 + x3 - 1)^10 + 4620*(x2 + x3 - 1)^7*((-2)*x1 - x2 - x3 + 1)^3 + 25740*(x2 + x3 - 1)^3*((-2)*x1 - x2 - x3 + 1)^7)/(x2 + x3 - 1) - 1/128*(21*x2 + x3 - 1)*(630*x1*(x2 + x3 - 1)^9 + 18018*(-x2 - x3 + 1)^5*((-2)*x1 - x2 - x3 + 1)^5 + 12155*(-x2 - x3 + 1)*((-2)*x1 - x2 - x3 + 1)^9 + 315*(x2 + x3 - 1)^10 + 4620*(x2 + x3 - 1)^7*((-2)*x1 - x2 - x3 + 1)^3 + 25740*(x2 + x3 - 1)^3*((-2)*x1 - x2 - x3 + 1)^7)/(x2 + x3 - 1)^2;
  (-315)/128*(x2 + x3 - 1)^9 + 3465/256*(x2 + x3 - 1)^8*(4*x1 + 2*x2 + 2*x3 - 2) + 3465/32*(x2 + x3 - 1)^7*(2*x1 + x2 + x3 - 1)^2 - 15015/32*(x2 + x3 - 1)^6*(2*x1 + x2 + x3 - 1)^3 - 45045/64*(x2 + x3 - 1)^5*(2*x1 + x2 + x3 - 1)^4 + 135135/64*(x2 + x3 - 1)^4*(2*x1 + x2 + x3 - 1)^5 + 45045/32*(x2 + x3 - 1)^3*(2*x1 + x2 + x3 - 1)^6 - 109395/32*(x2 + x3 - 1)^2*(2*x1 + x2 + x3 - 1)^7 - 109395/256*(2*x2 + 2*x3 - 2)*(2*x1 + x2 + x3 - 1)^8 + 230945/128*(2*x1 + x2 + x3 - 1)^9].

(** src/dg/generated/basis_tet_der_xi3.inc:25-882 *)
Definition tet_d3 : list ex := [
  0;
  4;
  1;
  1;
  30*x3 - 10;
  18*x2 + 12*x3 - 7;
  8*x2 + 2*x3 - 2;
  12*x1 + 6*x2 + 12*x3 - 7;
  2*x1 + 6*x2 + 2*x3 - 2;
  6*x1 + 2*x2 + 2*x3 - 2;
  168*x3^2 - 126*x3 + 18;
  14*x3 + 7*(2*x3 - 1)^2 + (56*x3 - 14)*(3*x2 + x3 - 1) - 6;
  (-(8*x3 - 1))*(4*x2*(2*x3 - 2) + 9*(x3 - 1)^2 - 5*(x3 - 1)*(4*x2 + 2*x3 - 2) - 5*(2*x2 + x3 - 1)^2)/(2*x3 - 2) - 8*(4*x2*(x3 - 1)^2 + 3*(x3 - 1)^3 - 5*(x3 - 1)*(2*x2 + x3 - 1)^2)/(2*x3 - 2) + 2*(8*x3 - 1)*(4*x2*(x3 - 1)^2 + 3*(x3 - 1)^3 - 5*(x3 - 1)*(2*x2 + x3 - 1)^2)/(2*x3 - 2)^2;
  45*x2^2 + 30*x2*x3 - 30*x2 + 3*x3^2 - 6*x3 + 3;
  14*x3 + 7*(2*x3 - 1)^2 + (56*x3 - 14)*(2*x1 + x2 + x3 - 1) - 6;
  (8*x3 - 1)*(5*x2 + x3 - 1) + (8*x3 - 1)*(2*x1 + x2 + x3 - 1) + 8*(5*x2 + x3 - 1)*(2*x1 + x2 + x3 - 1);
  (-(36*x2*(x3 - 1)^2 + 17*(x3 - 1)^3 - 21*(x3 - 1)*(2*x2 + x3 - 1)^2))/(4*x3 - 4) - (2*x1 + x2 + x3 - 1)*(36*x2*(2*x3 - 2) + 51*(x3 - 1)^2 - 21*(x3 - 1)*(4*x2 + 2*x3 - 2) - 21*(2*x2 + x3 - 1)^2)/(4*x3 - 4) + 4*(36*x2*(x3 - 1)^2 + 17*(x3 - 1)^3 - 21*(x3 - 1)*(2*x2 + x3 - 1)^2)*(2*x1 + x2 + x3 - 1)/(4*x3 - 4)^2;
  1/2*(8*x3 - 1)*(12*x1 + 4*x2 + 4*x3 - 4) - 4*(x2 + x3 - 1)^2 + 12*(2*x1 + x2 + x3 - 1)^2;
  (-1)/2*(x2 + x3 - 1)^2 + 1/2*(7*x2 + x3 - 1)*(12*x1 + 4*x2 + 4*x3 - 4) + 3/2*(2*x1 + x2 + x3 - 1)^2;
  (-(18*x1*(x2 + x3 - 1)^2 + 12*(x2 + x3 - 1)^3 - 15*(x2 + x3 - 1)*(2*x1 + x2 + x3 - 1)^2 - 5*(2*x1 + x2 + x3 - 1)^3))/(2*x2 + 2*x3 - 2) + 2*(6*x1*(x2 + x3 - 1)^3 + 3*(x2 + x3 - 1)^4 - 5*(x2 + x3 - 1)*(2*x1 + x2 + x3 - 1)^3)/(2*x2 + 2*x3 - 2)^2;
  840*x3^3 - 1008*x3^2 + 336*x3 - 28;
  6*x3 + 15*(2*x3 - 1)^3 + 18*(2*x3 - 1)^2 + (3*x2 + x3 - 1)*(144*x3 + 90*(2*x3 - 1)^2 - 66) - 4;
  (-(360*x3 - 72))*(4*x2*(x3 - 1)^2 + 3*(x3 - 1)^3 - 5*(x3 - 1)*(2*x2 + x3 - 1)^2)/(8*x3 - 8) - (108*x3 + 45*(2*x3 - 1)^2 - 41)*(4*x2*(2*x3 - 2) + 9*(x3 - 1)^2 - 5*(x3 - 1)*(4*x2 + 2*x3 - 2) - 5*(2*x2 + x3 - 1)^2)/(8*x3 - 8) + 8*(108*x3 + 45*(2*x3 - 1)^2 - 41)*(4*x2*(x3 - 1)^2 + 3*(x3 - 1)^3 - 5*(x3 - 1)*(2*x2 + x3 - 1)^2)/(8*x3 - 8)^2;
  (-(10*x3 - 1))*(90*x2*(x3 - 1)^2 + 48*(x3 - 1)^3 + 15*(x3 - 1)^2*(4*x2 + 2*x3 - 2) - 105*(x3 - 1)*(2*x2 + x3 - 1)^2 + 15*(2*x3 - 2)*(2*x2 + x3 - 1)^2 - 35*(2*x2 + x3 - 1)^3)/(8*x3 - 8) - 10*(30*x2*(x3 - 1)^3 + 12*(x3 - 1)^4 + 15*(x3 - 1)^2*(2*x2 + x3 - 1)^2 - 35*(x3 - 1)*(2*x2 + x3 - 1)^3)/(8*x3 - 8) + 8*(10*x3 - 1)*(30*x2*(x3 - 1)^3 + 12*(x3 - 1)^4 + 15*(x3 - 1)^2*(2*x2 + x3 - 1)^2 - 35*(x3 - 1)*(2*x2 + x3 - 1)^3)/(8*x3 - 8)^2;
  9*x2*(x3 - 1)^2 + 15/2*(x3 - 1)^3 - 21/4*(x3 - 1)^2*(4*x2 + 2*x3 - 2) - 21/2*(x3 - 1)*(2*x2 + x3 - 1)^2 - 21/4*(2*x3 - 2)*(2*x2 + x3 - 1)^2 + 28*(2*x2 + x3 - 1)^3;
  6*x3 + 15*(2*x3 - 1)^3 + 18*(2*x3 - 1)^2 + (144*x3 + 90*(2*x3 - 1)^2 - 66)*(2*x1 + x2 + x3 - 1) - 4;
  1/4*(360*x3 - 72)*(5*x2 + x3 - 1)*(2*x1 + x2 + x3 - 1) + 1/4*(5*x2 + x3 - 1)*(108*x3 + 45*(2*x3 - 1)^2 - 41) + 1/4*(108*x3 + 45*(2*x3 - 1)^2 - 41)*(2*x1 + x2 + x3 - 1);
  (-(10*x3 - 1))*(36*x2*(x3 - 1)^2 + 17*(x3 - 1)^3 - 21*(x3 - 1)*(2*x2 + x3 - 1)^2)/(4*x3 - 4) - (10*x3 - 1)*(2*x1 + x2 + x3 - 1)*(36*x2*(2*x3 - 2) + 51*(x3 - 1)^2 - 21*(x3 - 1)*(4*x2 + 2*x3 - 2) - 21*(2*x2 + x3 - 1)^2)/(4*x3 - 4) - 10*(36*x2*(x3 - 1)^2 + 17*(x3 - 1)^3 - 21*(x3 - 1)*(2*x2 + x3 - 1)^2)*(2*x1 + x2 + x3 - 1)/(4*x3 - 4) + 4*(10*x3 - 1)*(36*x2*(x3 - 1)^2 + 17*(x3 - 1)^3 - 21*(x3 - 1)*(2*x2 + x3 - 1)^2)*(2*x1 + x2 + x3 - 1)/(4*x3 - 4)^2;
  (x3 - 1)^3 - 21/2*(x3 - 1)*(2*x2 + x3 - 1)^2 + 21/2*(2*x2 + x3 - 1)^3 + 1/2*(6*(x3 - 1)^2 - 21*(x3 - 1)*(4*x2 + 2*x3 - 2) + 42*(2*x2 + x3 - 1)^2)*(2*x1 + x2 + x3 - 1);
  1/8*(360*x3 - 72)*(-(x2 + x3 - 1)^2 + 3*(2*x1 + x2 + x3 - 1)^2) + 1/8*(108*x3 + 45*(2*x3 - 1)^2 - 41)*(12*x1 + 4*x2 + 4*x3 - 4);
  1/2*(10*x3 - 1)*(-(x2 + x3 - 1)^2 + 3*(2*x1 + x2 + x3 - 1)^2) + 1/2*(10*x3 - 1)*(7*x2 + x3 - 1)*(12*x1 + 4*x2 + 4*x3 - 4) + 5*(-(x2 + x3 - 1)^2 + 3*(2*x1 + x2 + x3 - 1)^2)*(7*x2 + x3 - 1);
  ((x2 + x3 - 1)^2 - 3*(2*x1 + x2 + x3 - 1)^2)*(20*x2*(2*x3 - 2) + 24*(x3 - 1)^2 - 9*(x3 - 1)*(4*x2 + 2*x3 - 2) - 9*(2*x2 + x3 - 1)^2)/(2*x3 - 2) + (20*x2*(x3 - 1)^2 + 8*(x3 - 1)^3 - 9*(x3 - 1)*(2*x2 + x3 - 1)^2)*((-12)*x1 - 4*x2 - 4*x3 + 4)/(2*x3 - 2) - 2*((x2 + x3 - 1)^2 - 3*(2*x1 + x2 + x3 - 1)^2)*(20*x2*(x3 - 1)^2 + 8*(x3 - 1)^3 - 9*(x3 - 1)*(2*x2 + x3 - 1)^2)/(2*x3 - 2)^2;
  (-(10*x3 - 1))*(18*x1*(x2 + x3 - 1)^2 + 12*(x2 + x3 - 1)^3 - 15*(x2 + x3 - 1)*(2*x1 + x2 + x3 - 1)^2 - 5*(2*x1 + x2 + x3 - 1)^3)/(2*x2 + 2*x3 - 2) + 2*(10*x3 - 1)*(6*x1*(x2 + x3 - 1)^3 + 3*(x2 + x3 - 1)^4 - 5*(x2 + x3 - 1)*(2*x1 + x2 + x3 - 1)^3)/(2*x2 + 2*x3 - 2)^2 - 10*(6*x1*(x2 + x3 - 1)^3 + 3*(x2 + x3 - 1)^4 - 5*(x2 + x3 - 1)*(2*x1 + x2 + x3 - 1)^3)/(2*x2 + 2*x3 - 2);
  1/2*(9*x2 + x3 - 1)*(18*x1*(x2 + x3 - 1)^2 + 15*(-x2 - x3 + 1)*(2*x1 + x2 + x3 - 1)^2 + 12*(x2 + x3 - 1)^3 - 5*(2*x1 + x2 + x3 - 1)^3)/(-x2 - x3 + 1) + 1/2*(6*x1*(x2 + x3 - 1)^3 + 5*(-x2 - x3 + 1)*(2*x1 + x2 + x3 - 1)^3 + 3*(x2 + x3 - 1)^4)/(-x2 - x3 + 1) + 1/2*(9*x2 + x3 - 1)*(6*x1*(x2 + x3 - 1)^3 + 5*(-x2 - x3 + 1)*(2*x1 + x2 + x3 - 1)^3 + 3*(x2 + x3 - 1)^4)/(-x2 - x3 + 1)^2;
  3/2*(x2 + x3 - 1)^3 - 15/4*(x2 + x3 - 1)^2*(4*x1 + 2*x2 + 2*x3 - 2) - 15/4*(2*x2 + 2*x3 - 2)*(2*x1 + x2 + x3 - 1)^2 + 35/2*(2*x1 + x2 + x3 - 1)^3;
  3960*x3^4 - 6600*x3^3 + 3600*x3^2 - 720*x3 + 40;
  (-27)/2*x3 + 495/16*(2*x3 - 1)^4 + 165/4*(2*x3 - 1)^3 + 45/8*(2*x3 - 1)^2 + 1/16*(3*x2 + x3 - 1)*(720*x3 + 3960*(2*x3 - 1)^3 + 3960*(2*x3 - 1)^2 - 576) + 91/16;
  (-(1320*x3 + 660*(2*x3 - 1)^2 - 540))*(4*x2*(x3 - 1)^2 + 3*(x3 - 1)^3 - 5*(x3 - 1)*(2*x2 + x3 - 1)^2)/(8*x3 - 8) - (120*x3 + 110*(2*x3 - 1)^3 + 165*(2*x3 - 1)^2 - 59)*(4*x2*(2*x3 - 2) + 9*(x3 - 1)^2 - 5*(x3 - 1)*(4*x2 + 2*x3 - 2) - 5*(2*x2 + x3 - 1)^2)/(8*x3 - 8) + 8*(4*x2*(x3 - 1)^2 + 3*(x3 - 1)^3 - 5*(x3 - 1)*(2*x2 + x3 - 1)^2)*(120*x3 + 110*(2*x3 - 1)^3 + 165*(2*x3 - 1)^2 - 59)/(8*x3 - 8)^2;
  (-(264*x3 - 44))*(30*x2*(x3 - 1)^3 + 12*(x3 - 1)^4 + 15*(x3 - 1)^2*(2*x2 + x3 - 1)^2 - 35*(x3 - 1)*(2*x2 + x3 - 1)^3)/(16*x3 - 16) - (88*x3 + 33*(2*x3 - 1)^2 - 31)*(90*x2*(x3 - 1)^2 + 48*(x3 - 1)^3 + 15*(x3 - 1)^2*(4*x2 + 2*x3 - 2) - 105*(x3 - 1)*(2*x2 + x3 - 1)^2 + 15*(2*x3 - 2)*(2*x2 + x3 - 1)^2 - 35*(2*x2 + x3 - 1)^3)/(16*x3 - 16) + 16*(88*x3 + 33*(2*x3 - 1)^2 - 31)*(30*x2*(x3 - 1)^3 + 12*(x3 - 1)^4 + 15*(x3 - 1)^2*(2*x2 + x3 - 1)^2 - 35*(x3 - 1)*(2*x2 + x3 - 1)^3)/(16*x3 - 16)^2;
  36*x2*(x3 - 1)^3 + 45/2*(x3 - 1)^4 - 63*(x3 - 1)^2*(2*x2 + x3 - 1)^2 - 42*(x3 - 1)*(2*x2 + x3 - 1)^3 + 1/8*(12*x3 - 1)*(72*x2*(x3 - 1)^2 + 60*(x3 - 1)^3 - 42*(x3 - 1)^2*(4*x2 + 2*x3 - 2) - 84*(x3 - 1)*(2*x2 + x3 - 1)^2 - 42*(2*x3 - 2)*(2*x2 + x3 - 1)^2 + 224*(2*x2 + x3 - 1)^3) + 189/2*(2*x2 + x3 - 1)^4;
  1/16*(350*x2*(x3 - 1)^4 + 420*(-x3 + 1)^2*((-2)*x2 - x3 + 1)^3 - 1155*(-x3 + 1)*((-2)*x2 - x3 + 1)^4 + 180*(x3 - 1)^5 + 70*(x3 - 1)^4*(4*x2 + 2*x3 - 2) - 350*(x3 - 1)^3*((-2)*x2 - x3 + 1)^2 + 630*(x3 - 1)^2*((-2)*x2 - x3 + 1)^3 - 105*(2*x3 - 2)*((-2)*x2 - x3 + 1)^4 - 231*((-2)*x2 - x3 + 1)^5)/(x3 - 1) - 1/16*(70*x2*(x3 - 1)^5 - 105*(-x3 + 1)^2*((-2)*x2 - x3 + 1)^4 + 231*(-x3 + 1)*((-2)*x2 - x3 + 1)^5 + 30*(x3 - 1)^6 + 70*(x3 - 1)^4*((-2)*x2 - x3 + 1)^2 + 210*(x3 - 1)^3*((-2)*x2 - x3 + 1)^3)/(x3 - 1)^2;
  (-27)/2*x3 + 495/16*(2*x3 - 1)^4 + 165/4*(2*x3 - 1)^3 + 45/8*(2*x3 - 1)^2 + 1/16*(2*x1 + x2 + x3 - 1)*(720*x3 + 3960*(2*x3 - 1)^3 + 3960*(2*x3 - 1)^2 - 576) + 91/16;
  1/4*(5*x2 + x3 - 1)*(1320*x3 + 660*(2*x3 - 1)^2 - 540)*(2*x1 + x2 + x3 - 1) + 1/4*(5*x2 + x3 - 1)*(120*x3 + 110*(2*x3 - 1)^3 + 165*(2*x3 - 1)^2 - 59) + 1/4*(2*x1 + x2 + x3 - 1)*(120*x3 + 110*(2*x3 - 1)^3 + 165*(2*x3 - 1)^2 - 59);
  (-(264*x3 - 44))*(36*x2*(x3 - 1)^2 + 17*(x3 - 1)^3 - 21*(x3 - 1)*(2*x2 + x3 - 1)^2)*(2*x1 + x2 + x3 - 1)/(8*x3 - 8) - (88*x3 + 33*(2*x3 - 1)^2 - 31)*(36*x2*(x3 - 1)^2 + 17*(x3 - 1)^3 - 21*(x3 - 1)*(2*x2 + x3 - 1)^2)/(8*x3 - 8) - (88*x3 + 33*(2*x3 - 1)^2 - 31)*(2*x1 + x2 + x3 - 1)*(36*x2*(2*x3 - 2) + 51*(x3 - 1)^2 - 21*(x3 - 1)*(4*x2 + 2*x3 - 2) - 21*(2*x2 + x3 - 1)^2)/(8*x3 - 8) + 8*(88*x3 + 33*(2*x3 - 1)^2 - 31)*(36*x2*(x3 - 1)^2 + 17*(x3 - 1)^3 - 21*(x3 - 1)*(2*x2 + x3 - 1)^2)*(2*x1 + x2 + x3 - 1)/(8*x3 - 8)^2;
  1/2*(12*x3 - 1)*(6*(x3 - 1)^2 - 21*(x3 - 1)*(4*x2 + 2*x3 - 2) + 42*(2*x2 + x3 - 1)^2)*(2*x1 + x2 + x3 - 1) + 1/2*(12*x3 - 1)*(2*(x3 - 1)^3 - 21*(x3 - 1)*(2*x2 + x3 - 1)^2 + 21*(2*x2 + x3 - 1)^3) + 6*(2*(x3 - 1)^3 - 21*(x3 - 1)*(2*x2 + x3 - 1)^2 + 21*(2*x2 + x3 - 1)^3)*(2*x1 + x2 + x3 - 1);
  11*x2*(x3 - 1)^3 + 41/8*(x3 - 1)^4 - 9/4*(x3 - 1)^2*(2*x2 + x3 - 1)^2 - 45/2*(x3 - 1)*(2*x2 + x3 - 1)^3 + 165/8*(2*x2 + x3 - 1)^4 + 1/8*(2*x1 + x2 + x3 - 1)*(264*x2*(x3 - 1)^2 + 164*(x3 - 1)^3 - 18*(x3 - 1)^2*(4*x2 + 2*x3 - 2) - 540*(x3 - 1)*(2*x2 + x3 - 1)^2 - 18*(2*x3 - 2)*(2*x2 + x3 - 1)^2 + 480*(2*x2 + x3 - 1)^3);
  1/8*(-(x2 + x3 - 1)^2 + 3*(2*x1 + x2 + x3 - 1)^2)*(1320*x3 + 660*(2*x3 - 1)^2 - 540) + 1/8*(12*x1 + 4*x2 + 4*x3 - 4)*(120*x3 + 110*(2*x3 - 1)^3 + 165*(2*x3 - 1)^2 - 59);
  1/4*(264*x3 - 44)*(-(x2 + x3 - 1)^2 + 3*(2*x1 + x2 + x3 - 1)^2)*(7*x2 + x3 - 1) + 1/4*(-(x2 + x3 - 1)^2 + 3*(2*x1 + x2 + x3 - 1)^2)*(88*x3 + 33*(2*x3 - 1)^2 - 31) + 1/4*(7*x2 + x3 - 1)*(88*x3 + 33*(2*x3 - 1)^2 - 31)*(12*x1 + 4*x2 + 4*x3 - 4);
  (12*x3 - 1)*((x2 + x3 - 1)^2 - 3*(2*x1 + x2 + x3 - 1)^2)*(20*x2*(2*x3 - 2) + 24*(x3 - 1)^2 - 9*(x3 - 1)*(4*x2 + 2*x3 - 2) - 9*(2*x2 + x3 - 1)^2)/(2*x3 - 2) + (12*x3 - 1)*(20*x2*(x3 - 1)^2 + 8*(x3 - 1)^3 - 9*(x3 - 1)*(2*x2 + x3 - 1)^2)*((-12)*x1 - 4*x2 - 4*x3 + 4)/(2*x3 - 2) + 12*((x2 + x3 - 1)^2 - 3*(2*x1 + x2 + x3 - 1)^2)*(20*x2*(x3 - 1)^2 + 8*(x3 - 1)^3 - 9*(x3 - 1)*(2*x2 + x3 - 1)^2)/(2*x3 - 2) - 2*(12*x3 - 1)*((x2 + x3 - 1)^2 - 3*(2*x1 + x2 + x3 - 1)^2)*(20*x2*(x3 - 1)^2 + 8*(x3 - 1)^3 - 9*(x3 - 1)*(2*x2 + x3 - 1)^2)/(2*x3 - 2)^2;
  1/16*(-(x2 + x3 - 1)^2 + 3*(2*x1 + x2 + x3 - 1)^2)*(378*x2*(x3 - 1)^2 - 225*(-x3 + 1)^2*(4*x2 + 2*x3 - 2) - 495*(-x3 + 1)*((-2)*x2 - x3 + 1)^2 + 272*(x3 - 1)^3 - 225*(2*x3 - 2)*((-2)*x2 - x3 + 1)^2 - 165*((-2)*x2 - x3 + 1)^3)/(x3 - 1) + 1/16*(12*x1 + 4*x2 + 4*x3 - 4)*(126*x2*(x3 - 1)^3 - 225*(-x3 + 1)^2*((-2)*x2 - x3 + 1)^2 + 165*(-x3 + 1)*((-2)*x2 - x3 + 1)^3 + 68*(x3 - 1)^4)/(x3 - 1) - 1/16*(-(x2 + x3 - 1)^2 + 3*(2*x1 + x2 + x3 - 1)^2)*(126*x2*(x3 - 1)^3 - 225*(-x3 + 1)^2*((-2)*x2 - x3 + 1)^2 + 165*(-x3 + 1)*((-2)*x2 - x3 + 1)^3 + 68*(x3 - 1)^4)/(x3 - 1)^2;
  (-(264*x3 - 44))*(6*x1*(x2 + x3 - 1)^3 + 3*(x2 + x3 - 1)^4 - 5*(x2 + x3 - 1)*(2*x1 + x2 + x3 - 1)^3)/(4*x2 + 4*x3 - 4) - (88*x3 + 33*(2*x3 - 1)^2 - 31)*(18*x1*(x2 + x3 - 1)^2 + 12*(x2 + x3 - 1)^3 - 15*(x2 + x3 - 1)*(2*x1 + x2 + x3 - 1)^2 - 5*(2*x1 + x2 + x3 - 1)^3)/(4*x2 + 4*x3 - 4) + 4*(88*x3 + 33*(2*x3 - 1)^2 - 31)*(6*x1*(x2 + x3 - 1)^3 + 3*(x2 + x3 - 1)^4 - 5*(x2 + x3 - 1)*(2*x1 + x2 + x3 - 1)^3)/(4*x2 + 4*x3 - 4)^2;
  1/2*(12*x3 - 1)*(9*x2 + x3 - 1)*(18*x1*(x2 + x3 - 1)^2 + 15*(-x2 - x3 + 1)*(2*x1 + x2 + x3 - 1)^2 + 12*(x2 + x3 - 1)^3 - 5*(2*x1 + x2 + x3 - 1)^3)/(-x2 - x3 + 1) + 1/2*(12*x3 - 1)*(6*x1*(x2 + x3 - 1)^3 + 5*(-x2 - x3 + 1)*(2*x1 + x2 + x3 - 1)^3 + 3*(x2 + x3 - 1)^4)/(-x2 - x3 + 1) + 1/2*(12*x3 - 1)*(9*x2 + x3 - 1)*(6*x1*(x2 + x3 - 1)^3 + 5*(-x2 - x3 + 1)*(2*x1 + x2 + x3 - 1)^3 + 3*(x2 + x3 - 1)^4)/(-x2 - x3 + 1)^2 + 6*(9*x2 + x3 - 1)*(6*x1*(x2 + x3 - 1)^3 + 5*(-x2 - x3 + 1)*(2*x1 + x2 + x3 - 1)^3 + 3*(x2 + x3 - 1)^4)/(-x2 - x3 + 1);
  1/8*(6*x1*(x2 + x3 - 1)^3 + 5*(-x2 - x3 + 1)*(2*x1 + x2 + x3 - 1)^3 + 3*(x2 + x3 - 1)^4)*(140*x2*(2*x3 - 2) + 55*(-x3 + 1)*(4*x2 + 2*x3 - 2) + 153*(x3 - 1)^2 - 55*((-2)*x2 - x3 + 1)^2)/((x3 - 1)*(x2 + x3 - 1)) + 1/8*(140*x2*(x3 - 1)^2 + 55*(-x3 + 1)*((-2)*x2 - x3 + 1)^2 + 51*(x3 - 1)^3)*(18*x1*(x2 + x3 - 1)^2 + 15*(-x2 - x3 + 1)*(2*x1 + x2 + x3 - 1)^2 + 12*(x2 + x3 - 1)^3 - 5*(2*x1 + x2 + x3 - 1)^3)/((x3 - 1)*(x2 + x3 - 1)) - 1/8*(6*x1*(x2 + x3 - 1)^3 + 5*(-x2 - x3 + 1)*(2*x1 + x2 + x3 - 1)^3 + 3*(x2 + x3 - 1)^4)*(140*x2*(x3 - 1)^2 + 55*(-x3 + 1)*((-2)*x2 - x3 + 1)^2 + 51*(x3 - 1)^3)/((x3 - 1)*(x2 + x3 - 1)^2) - 1/8*(6*x1*(x2 + x3 - 1)^3 + 5*(-x2 - x3 + 1)*(2*x1 + x2 + x3 - 1)^3 + 3*(x2 + x3 - 1)^4)*(140*x2*(x3 - 1)^2 + 55*(-x3 + 1)*((-2)*x2 - x3 + 1)^2 + 51*(x3 - 1)^3)/((x3 - 1)^2*(x2 + x3 - 1));
  1/8*(12*x3 - 1)*(12*(x2 + x3 - 1)^3 - 30*(x2 + x3 - 1)^2*(4*x1 + 2*x2 + 2*x3 - 2) - 30*(2*x2 + 2*x3 - 2)*(2*x1 + x2 + x3 - 1)^2 + 140*(2*x1 + x2 + x3 - 1)^3) + 9/2*(x2 + x3 - 1)^4 - 45*(x2 + x3 - 1)^2*(2*x1 + x2 + x3 - 1)^2 + 105/2*(2*x1 + x2 + x3 - 1)^4;
  3/8*(x2 + x3 - 1)^4 - 15/4*(x2 + x3 - 1)^2*(2*x1 + x2 + x3 - 1)^2 + 1/8*(11*x2 + x3 - 1)*(12*(x2 + x3 - 1)^3 - 30*(x2 + x3 - 1)^2*(4*x1 + 2*x2 + 2*x3 - 2) - 30*(2*x2 + 2*x3 - 2)*(2*x1 + x2 + x3 - 1)^2 + 140*(2*x1 + x2 + x3 - 1)^3) + 35/8*(2*x1 + x2 + x3 - 1)^4;
  1/8*(150*x1*(x2 + x3 - 1)^4 - 315*(-x2 - x3 + 1)*((-2)*x1 - x2 - x3 + 1)^4 + 90*(x2 + x3 - 1)^5 - 210*(x2 + x3 - 1)^3*((-2)*x1 - x2 - x3 + 1)^2 + 210*(x2 + x3 - 1)^2*((-2)*x1 - x2 - x3 + 1)^3 - 63*((-2)*x1 - x2 - x3 + 1)^5)/(x2 + x3 - 1) - 1/8*(30*x1*(x2 + x3 - 1)^5 + 63*(-x2 - x3 + 1)*((-2)*x1 - x2 - x3 + 1)^5 + 15*(x2 + x3 - 1)^6 + 70*(x2 + x3 - 1)^3*((-2)*x1 - x2 - x3 + 1)^3)/(x2 + x3 - 1)^2;
  18018*x3^5 - 38610*x3^4 + 29700*x3^3 - 9900*x3^2 + 1350*x3 - 54;
  (-95)/8*x3 + 1001/16*(2*x3 - 1)^5 + 715/8*(2*x3 - 1)^4 + 55/8*(2*x3 - 1)^3 - 55/2*(2*x3 - 1)^2 + 1/16*(3*x2 + x3 - 1)*((-3520)*x3 + 10010*(2*x3 - 1)^4 + 11440*(2*x3 - 1)^3 + 660*(2*x3 - 1)^2 + 1570) + 105/16;
  (-(4*x2*(x3 - 1)^2 + 3*(x3 - 1)^3 - 5*(x3 - 1)*(2*x2 + x3 - 1)^2))*(5808*x3 + 8008*(2*x3 - 1)^3 + 10296*(2*x3 - 1)^2 - 2992)/(32*x3 - 32) - (4*x2*(2*x3 - 2) + 9*(x3 - 1)^2 - 5*(x3 - 1)*(4*x2 + 2*x3 - 2) - 5*(2*x2 + x3 - 1)^2)*((-88)*x3 + 1001*(2*x3 - 1)^4 + 1716*(2*x3 - 1)^3 + 726*(2*x3 - 1)^2 + 5)/(32*x3 - 32) + 32*(4*x2*(x3 - 1)^2 + 3*(x3 - 1)^3 - 5*(x3 - 1)*(2*x2 + x3 - 1)^2)*((-88)*x3 + 1001*(2*x3 - 1)^4 + 1716*(2*x3 - 1)^3 + 726*(2*x3 - 1)^2 + 5)/(32*x3 - 32)^2;
  (-(1248*x3 + 546*(2*x3 - 1)^2 - 474))*(30*x2*(x3 - 1)^3 + 12*(x3 - 1)^4 + 15*(x3 - 1)^2*(2*x2 + x3 - 1)^2 - 35*(x3 - 1)*(2*x2 + x3 - 1)^3)/(16*x3 - 16) - (150*x3 + 91*(2*x3 - 1)^3 + 156*(2*x3 - 1)^2 - 67)*(90*x2*(x3 - 1)^2 + 48*(x3 - 1)^3 + 15*(x3 - 1)^2*(4*x2 + 2*x3 - 2) - 105*(x3 - 1)*(2*x2 + x3 - 1)^2 + 15*(2*x3 - 2)*(2*x2 + x3 - 1)^2 - 35*(2*x2 + x3 - 1)^3)/(16*x3 - 16) + 16*(150*x3 + 91*(2*x3 - 1)^3 + 156*(2*x3 - 1)^2 - 67)*(30*x2*(x3 - 1)^3 + 12*(x3 - 1)^4 + 15*(x3 - 1)^2*(2*x2 + x3 - 1)^2 - 35*(x3 - 1)*(2*x2 + x3 - 1)^3)/(16*x3 - 16)^2;
  1/32*(728*x3 - 104)*(24*x2*(x3 - 1)^3 + 15*(x3 - 1)^4 - 42*(x3 - 1)^2*(2*x2 + x3 - 1)^2 - 28*(x3 - 1)*(2*x2 + x3 - 1)^3 + 63*(2*x2 + x3 - 1)^4) + 1/32*(260*x3 + 91*(2*x3 - 1)^2 - 87)*(72*x2*(x3 - 1)^2 + 60*(x3 - 1)^3 - 42*(x3 - 1)^2*(4*x2 + 2*x3 - 2) - 84*(x3 - 1)*(2*x2 + x3 - 1)^2 - 42*(2*x3 - 2)*(2*x2 + x3 - 1)^2 + 224*(2*x2 + x3 - 1)^3);
  1/16*(14*x3 - 1)*(350*x2*(x3 - 1)^4 + 420*(-x3 + 1)^2*((-2)*x2 - x3 + 1)^3 - 1155*(-x3 + 1)*((-2)*x2 - x3 + 1)^4 + 180*(x3 - 1)^5 + 70*(x3 - 1)^4*(4*x2 + 2*x3 - 2) - 350*(x3 - 1)^3*((-2)*x2 - x3 + 1)^2 + 630*(x3 - 1)^2*((-2)*x2 - x3 + 1)^3 - 105*(2*x3 - 2)*((-2)*x2 - x3 + 1)^4 - 231*((-2)*x2 - x3 + 1)^5)/(x3 - 1) + 7/8*(70*x2*(x3 - 1)^5 - 105*(-x3 + 1)^2*((-2)*x2 - x3 + 1)^4 + 231*(-x3 + 1)*((-2)*x2 - x3 + 1)^5 + 30*(x3 - 1)^6 + 70*(x3 - 1)^4*((-2)*x2 - x3 + 1)^2 + 210*(x3 - 1)^3*((-2)*x2 - x3 + 1)^3)/(x3 - 1) - 1/16*(14*x3 - 1)*(70*x2*(x3 - 1)^5 - 105*(-x3 + 1)^2*((-2)*x2 - x3 + 1)^4 + 231*(-x3 + 1)*((-2)*x2 - x3 + 1)^5 + 30*(x3 - 1)^6 + 70*(x3 - 1)^4*((-2)*x2 - x3 + 1)^2 + 210*(x3 - 1)^3*((-2)*x2 - x3 + 1)^3)/(x3 - 1)^2;
  1/16*((-360)*x2*(x3 - 1)^5 - 135*(-x3 + 1)^5*(4*x2 + 2*x3 - 2) + 675*(-x3 + 1)^4*((-2)*x2 - x3 + 1)^2 - 990*(-x3 + 1)^2*((-2)*x2 - x3 + 1)^4 + 2574*(-x3 + 1)*((-2)*x2 - x3 + 1)^5 - 245*(x3 - 1)^6 + 540*(x3 - 1)^4*((-2)*x2 - x3 + 1)^2 + 1260*(x3 - 1)^3*((-2)*x2 - x3 + 1)^3 - 1485*(x3 - 1)^2*((-2)*x2 - x3 + 1)^4 + 198*(2*x3 - 2)*((-2)*x2 - x3 + 1)^5 + 429*((-2)*x2 - x3 + 1)^6)/(x3 - 1) - 1/16*((-60)*x2*(x3 - 1)^6 - 135*(-x3 + 1)^5*((-2)*x2 - x3 + 1)^2 + 198*(-x3 + 1)^2*((-2)*x2 - x3 + 1)^5 - 429*(-x3 + 1)*((-2)*x2 - x3 + 1)^6 - 35*(x3 - 1)^7 - 180*(x3 - 1)^4*((-2)*x2 - x3 + 1)^3 - 495*(x3 - 1)^3*((-2)*x2 - x3 + 1)^4)/(x3 - 1)^2;
  (-95)/8*x3 + 1001/16*(2*x3 - 1)^5 + 715/8*(2*x3 - 1)^4 + 55/8*(2*x3 - 1)^3 - 55/2*(2*x3 - 1)^2 + 1/16*(2*x1 + x2 + x3 - 1)*((-3520)*x3 + 10010*(2*x3 - 1)^4 + 11440*(2*x3 - 1)^3 + 660*(2*x3 - 1)^2 + 1570) + 105/16;
  1/16*(5*x2 + x3 - 1)*(2*x1 + x2 + x3 - 1)*(5808*x3 + 8008*(2*x3 - 1)^3 + 10296*(2*x3 - 1)^2 - 2992) + 1/16*(5*x2 + x3 - 1)*((-88)*x3 + 1001*(2*x3 - 1)^4 + 1716*(2*x3 - 1)^3 + 726*(2*x3 - 1)^2 + 5) + 1/16*(2*x1 + x2 + x3 - 1)*((-88)*x3 + 1001*(2*x3 - 1)^4 + 1716*(2*x3 - 1)^3 + 726*(2*x3 - 1)^2 + 5);
  (-(1248*x3 + 546*(2*x3 - 1)^2 - 474))*(36*x2*(x3 - 1)^2 + 17*(x3 - 1)^3 - 21*(x3 - 1)*(2*x2 + x3 - 1)^2)*(2*x1 + x2 + x3 - 1)/(8*x3 - 8) - (36*x2*(x3 - 1)^2 + 17*(x3 - 1)^3 - 21*(x3 - 1)*(2*x2 + x3 - 1)^2)*(150*x3 + 91*(2*x3 - 1)^3 + 156*(2*x3 - 1)^2 - 67)/(8*x3 - 8) - (2*x1 + x2 + x3 - 1)*(150*x3 + 91*(2*x3 - 1)^3 + 156*(2*x3 - 1)^2 - 67)*(36*x2*(2*x3 - 2) + 51*(x3 - 1)^2 - 21*(x3 - 1)*(4*x2 + 2*x3 - 2) - 21*(2*x2 + x3 - 1)^2)/(8*x3 - 8) + 8*(36*x2*(x3 - 1)^2 + 17*(x3 - 1)^3 - 21*(x3 - 1)*(2*x2 + x3 - 1)^2)*(2*x1 + x2 + x3 - 1)*(150*x3 + 91*(2*x3 - 1)^3 + 156*(2*x3 - 1)^2 - 67)/(8*x3 - 8)^2;
  1/8*(728*x3 - 104)*(2*(x3 - 1)^3 - 21*(x3 - 1)*(2*x2 + x3 - 1)^2 + 21*(2*x2 + x3 - 1)^3)*(2*x1 + x2 + x3 - 1) + 1/8*(260*x3 + 91*(2*x3 - 1)^2 - 87)*(6*(x3 - 1)^2 - 21*(x3 - 1)*(4*x2 + 2*x3 - 2) + 42*(2*x2 + x3 - 1)^2)*(2*x1 + x2 + x3 - 1) + 1/8*(260*x3 + 91*(2*x3 - 1)^2 - 87)*(2*(x3 - 1)^3 - 21*(x3 - 1)*(2*x2 + x3 - 1)^2 + 21*(2*x2 + x3 - 1)^3);
  1/8*(14*x3 - 1)*(2*x1 + x2 + x3 - 1)*(264*x2*(x3 - 1)^2 + 164*(x3 - 1)^3 - 18*(x3 - 1)^2*(4*x2 + 2*x3 - 2) - 540*(x3 - 1)*(2*x2 + x3 - 1)^2 - 18*(2*x3 - 2)*(2*x2 + x3 - 1)^2 + 480*(2*x2 + x3 - 1)^3) + 1/8*(14*x3 - 1)*(88*x2*(x3 - 1)^3 + 41*(x3 - 1)^4 - 18*(x3 - 1)^2*(2*x2 + x3 - 1)^2 - 180*(x3 - 1)*(2*x2 + x3 - 1)^3 + 165*(2*x2 + x3 - 1)^4) + 7/4*(2*x1 + x2 + x3 - 1)*(88*x2*(x3 - 1)^3 + 41*(x3 - 1)^4 - 18*(x3 - 1)^2*(2*x2 + x3 - 1)^2 - 180*(x3 - 1)*(2*x2 + x3 - 1)^3 + 165*(2*x2 + x3 - 1)^4);
  1/32*(2*x1 + x2 + x3 - 1)*((-450)*x2*(x3 - 1)^4 + 420*(-x3 + 1)^5 + 5940*(-x3 + 1)^2*((-2)*x2 - x3 + 1)^3 - 6435*(-x3 + 1)*((-2)*x2 - x3 + 1)^4 + 630*(x3 - 1)^4*(4*x2 + 2*x3 - 2) + 1530*(x3 - 1)^3*((-2)*x2 - x3 + 1)^2 + 990*(x3 - 1)^2*((-2)*x2 - x3 + 1)^3 - 1485*(2*x3 - 2)*((-2)*x2 - x3 + 1)^4 - 1287*((-2)*x2 - x3 + 1)^5)/(x3 - 1) + 1/32*((-90)*x2*(x3 - 1)^5 - 70*(-x3 + 1)^6 - 1485*(-x3 + 1)^2*((-2)*x2 - x3 + 1)^4 + 1287*(-x3 + 1)*((-2)*x2 - x3 + 1)^5 + 630*(x3 - 1)^4*((-2)*x2 - x3 + 1)^2 + 330*(x3 - 1)^3*((-2)*x2 - x3 + 1)^3)/(x3 - 1) - 1/32*(2*x1 + x2 + x3 - 1)*((-90)*x2*(x3 - 1)^5 - 70*(-x3 + 1)^6 - 1485*(-x3 + 1)^2*((-2)*x2 - x3 + 1)^4 + 1287*(-x3 + 1)*((-2)*x2 - x3 + 1)^5 + 630*(x3 - 1)^4*((-2)*x2 - x3 + 1)^2 + 330*(x3 - 1)^3*((-2)*x2 - x3 + 1)^3)/(x3 - 1)^2;
  1/32*(-(x2 + x3 - 1)^2 + 3*(2*x1 + x2 + x3 - 1)^2)*(5808*x3 + 8008*(2*x3 - 1)^3 + 10296*(2*x3 - 1)^2 - 2992) + 1/32*(12*x1 + 4*x2 + 4*x3 - 4)*((-88)*x3 + 1001*(2*x3 - 1)^4 + 1716*(2*x3 - 1)^3 + 726*(2*x3 - 1)^2 + 5);
  1/4*(-(x2 + x3 - 1)^2 + 3*(2*x1 + x2 + x3 - 1)^2)*(7*x2 + x3 - 1)*(1248*x3 + 546*(2*x3 - 1)^2 - 474) + 1/4*(-(x2 + x3 - 1)^2 + 3*(2*x1 + x2 + x3 - 1)^2)*(150*x3 + 91*(2*x3 - 1)^3 + 156*(2*x3 - 1)^2 - 67) + 1/4*(7*x2 + x3 - 1)*(12*x1 + 4*x2 + 4*x3 - 4)*(150*x3 + 91*(2*x3 - 1)^3 + 156*(2*x3 - 1)^2 - 67);
  (728*x3 - 104)*((x2 + x3 - 1)^2 - 3*(2*x1 + x2 + x3 - 1)^2)*(20*x2*(x3 - 1)^2 + 8*(x3 - 1)^3 - 9*(x3 - 1)*(2*x2 + x3 - 1)^2)/(8*x3 - 8) + ((x2 + x3 - 1)^2 - 3*(2*x1 + x2 + x3 - 1)^2)*(260*x3 + 91*(2*x3 - 1)^2 - 87)*(20*x2*(2*x3 - 2) + 24*(x3 - 1)^2 - 9*(x3 - 1)*(4*x2 + 2*x3 - 2) - 9*(2*x2 + x3 - 1)^2)/(8*x3 - 8) + (260*x3 + 91*(2*x3 - 1)^2 - 87)*(20*x2*(x3 - 1)^2 + 8*(x3 - 1)^3 - 9*(x3 - 1)*(2*x2 + x3 - 1)^2)*((-12)*x1 - 4*x2 - 4*x3 + 4)/(8*x3 - 8) - 8*((x2 + x3 - 1)^2 - 3*(2*x1 + x2 + x3 - 1)^2)*(260*x3 + 91*(2*x3 - 1)^2 - 87)*(20*x2*(x3 - 1)^2 + 8*(x3 - 1)^3 - 9*(x3 - 1)*(2*x2 + x3 - 1)^2)/(8*x3 - 8)^2;
  1/16*(14*x3 - 1)*(-(x2 + x3 - 1)^2 + 3*(2*x1 + x2 + x3 - 1)^2)*(378*x2*(x3 - 1)^2 - 225*(-x3 + 1)^2*(4*x2 + 2*x3 - 2) - 495*(-x3 + 1)*((-2)*x2 - x3 + 1)^2 + 272*(x3 - 1)^3 - 225*(2*x3 - 2)*((-2)*x2 - x3 + 1)^2 - 165*((-2)*x2 - x3 + 1)^3)/(x3 - 1) + 1/16*(14*x3 - 1)*(12*x1 + 4*x2 + 4*x3 - 4)*(126*x2*(x3 - 1)^3 - 225*(-x3 + 1)^2*((-2)*x2 - x3 + 1)^2 + 165*(-x3 + 1)*((-2)*x2 - x3 + 1)^3 + 68*(x3 - 1)^4)/(x3 - 1) + 7/8*(-(x2 + x3 - 1)^2 + 3*(2*x1 + x2 + x3 - 1)^2)*(126*x2*(x3 - 1)^3 - 225*(-x3 + 1)^2*((-2)*x2 - x3 + 1)^2 + 165*(-x3 + 1)*((-2)*x2 - x3 + 1)^3 + 68*(x3 - 1)^4)/(x3 - 1) - 1/16*(14*x3 - 1)*(-(x2 + x3 - 1)^2 + 3*(2*x1 + x2 + x3 - 1)^2)*(126*x2*(x3 - 1)^3 - 225*(-x3 + 1)^2*((-2)*x2 - x3 + 1)^2 + 165*(-x3 + 1)*((-2)*x2 - x3 + 1)^3 + 68*(x3 - 1)^4)/(x3 - 1)^2;
  1/32*(-(x2 + x3 - 1)^2 + 3*(2*x1 + x2 + x3 - 1)^2)*(600*x2*(x3 - 1)^2 + 284*(x3 - 1)^3 + 330*(x3 - 1)^2*(4*x2 + 2*x3 - 2) - 3300*(x3 - 1)*(2*x2 + x3 - 1)^2 + 330*(2*x3 - 2)*(2*x2 + x3 - 1)^2 + 1760*(2*x2 + x3 - 1)^3) + 1/32*(12*x1 + 4*x2 + 4*x3 - 4)*(200*x2*(x3 - 1)^3 + 71*(x3 - 1)^4 + 330*(x3 - 1)^2*(2*x2 + x3 - 1)^2 - 1100*(x3 - 1)*(2*x2 + x3 - 1)^3 + 715*(2*x2 + x3 - 1)^4);
  (-(1248*x3 + 546*(2*x3 - 1)^2 - 474))*(6*x1*(x2 + x3 - 1)^3 + 3*(x2 + x3 - 1)^4 - 5*(x2 + x3 - 1)*(2*x1 + x2 + x3 - 1)^3)/(4*x2 + 4*x3 - 4) - (150*x3 + 91*(2*x3 - 1)^3 + 156*(2*x3 - 1)^2 - 67)*(18*x1*(x2 + x3 - 1)^2 + 12*(x2 + x3 - 1)^3 - 15*(x2 + x3 - 1)*(2*x1 + x2 + x3 - 1)^2 - 5*(2*x1 + x2 + x3 - 1)^3)/(4*x2 + 4*x3 - 4) + 4*(6*x1*(x2 + x3 - 1)^3 + 3*(x2 + x3 - 1)^4 - 5*(x2 + x3 - 1)*(2*x1 + x2 + x3 - 1)^3)*(150*x3 + 91*(2*x3 - 1)^3 + 156*(2*x3 - 1)^2 - 67)/(4*x2 + 4*x3 - 4)^2;
  1/8*(728*x3 - 104)*(9*x2 + x3 - 1)*(6*x1*(x2 + x3 - 1)^3 + 5*(-x2 - x3 + 1)*(2*x1 + x2 + x3 - 1)^3 + 3*(x2 + x3 - 1)^4)/(-x2 - x3 + 1) + 1/8*(9*x2 + x3 - 1)*(260*x3 + 91*(2*x3 - 1)^2 - 87)*(18*x1*(x2 + x3 - 1)^2 + 15*(-x2 - x3 + 1)*(2*x1 + x2 + x3 - 1)^2 + 12*(x2 + x3 - 1)^3 - 5*(2*x1 + x2 + x3 - 1)^3)/(-x2 - x3 + 1) + 1/8*(260*x3 + 91*(2*x3 - 1)^2 - 87)*(6*x1*(x2 + x3 - 1)^3 + 5*(-x2 - x3 + 1)*(2*x1 + x2 + x3 - 1)^3 + 3*(x2 + x3 - 1)^4)/(-x2 - x3 + 1) + 1/8*(9*x2 + x3 - 1)*(260*x3 + 91*(2*x3 - 1)^2 - 87)*(6*x1*(x2 + x3 - 1)^3 + 5*(-x2 - x3 + 1)*(2*x1 + x2 + x3 - 1)^3 + 3*(x2 + x3 - 1)^4)/(-x2 - x3 + 1)^2;
  1/8*(14*x3 - 1)*(6*x1*(x2 + x3 - 1)^3 + 5*(-x2 - x3 + 1)*(2*x1 + x2 + x3 - 1)^3 + 3*(x2 + x3 - 1)^4)*(140*x2*(2*x3 - 2) + 55*(-x3 + 1)*(4*x2 + 2*x3 - 2) + 153*(x3 - 1)^2 - 55*((-2)*x2 - x3 + 1)^2)/((x3 - 1)*(x2 + x3 - 1)) + 1/8*(14*x3 - 1)*(140*x2*(x3 - 1)^2 + 55*(-x3 + 1)*((-2)*x2 - x3 + 1)^2 + 51*(x3 - 1)^3)*(18*x1*(x2 + x3 - 1)^2 + 15*(-x2 - x3 + 1)*(2*x1 + x2 + x3 - 1)^2 + 12*(x2 + x3 - 1)^3 - 5*(2*x1 + x2 + x3 - 1)^3)/((x3 - 1)*(x2 + x3 - 1)) - 1/8*(14*x3 - 1)*(6*x1*(x2 + x3 - 1)^3 + 5*(-x2 - x3 + 1)*(2*x1 + x2 + x3 - 1)^3 + 3*(x2 + x3 - 1)^4)*(140*x2*(x3 - 1)^2 + 55*(-x3 + 1)*((-2)*x2 - x3 + 1)^2 + 51*(x3 - 1)^3)/((x3 - 1)*(x2 + x3 - 1)^2) + 7/4*(6*x1*(x2 + x3 - 1)^3 + 5*(-x2 - x3 + 1)*(2*x1 + x2 + x3 - 1)^3 + 3*(x2 + x3 - 1)^4)*(140*x2*(x3 - 1)^2 + 55*(-x3 + 1)*((-2)*x2 - x3 + 1)^2 + 51*(x3 - 1)^3)/((x3 - 1)*(x2 + x3 - 1)) - 1/8*(14*x3 - 1)*(6*x1*(x2 + x3 - 1)^3 + 5*(-x2 - x3 + 1)*(2*x1 + x2 + x3 - 1)^3 + 3*(x2 + x3 - 1)^4)*(140*x2*(x3 - 1)^2 + 55*(-x3 + 1)*((-2)*x2 - x3 + 1)^2 + 51*(x3 - 1)^3)/((x3 - 1)^2*(x2 + x3 - 1));
  (-(6*x1*(x2 + x3 - 1)^3 + 3*(x2 + x3 - 1)^4 - 5*(x2 + x3 - 1)*(2*x1 + x2 + x3 - 1)^3))*(198*x2*(2*x3 - 2) + 276*(x3 - 1)^2 - 231*(x3 - 1)*(4*x2 + 2*x3 - 2) + 198*(2*x2 + x3 - 1)^2)/(8*x2 + 8*x3 - 8) - (18*x1*(x2 + x3 - 1)^2 + 12*(x2 + x3 - 1)^3 - 15*(x2 + x3 - 1)*(2*x1 + x2 + x3 - 1)^2 - 5*(2*x1 + x2 + x3 - 1)^3)*(198*x2*(x3 - 1)^2 + 92*(x3 - 1)^3 - 231*(x3 - 1)*(2*x2 + x3 - 1)^2 + 143*(2*x2 + x3 - 1)^3)/(8*x2 + 8*x3 - 8) + 8*(6*x1*(x2 + x3 - 1)^3 + 3*(x2 + x3 - 1)^4 - 5*(x2 + x3 - 1)*(2*x1 + x2 + x3 - 1)^3)*(198*x2*(x3 - 1)^2 + 92*(x3 - 1)^3 - 231*(x3 - 1)*(2*x2 + x3 - 1)^2 + 143*(2*x2 + x3 - 1)^3)/(8*x2 + 8*x3 - 8)^2;
  1/32*(728*x3 - 104)*(3*(x2 + x3 - 1)^4 - 30*(x2 + x3 - 1)^2*(2*x1 + x2 + x3 - 1)^2 + 35*(2*x1 + x2 + x3 - 1)^4) + 1/32*(260*x3 + 91*(2*x3 - 1)^2 - 87)*(12*(x2 + x3 - 1)^3 - 30*(x2 + x3 - 1)^2*(4*x1 + 2*x2 + 2*x3 - 2) - 30*(2*x2 + 2*x3 - 2)*(2*x1 + x2 + x3 - 1)^2 + 140*(2*x1 + x2 + x3 - 1)^3);
  1/8*(14*x3 - 1)*(11*x2 + x3 - 1)*(12*(x2 + x3 - 1)^3 - 30*(x2 + x3 - 1)^2*(4*x1 + 2*x2 + 2*x3 - 2) - 30*(2*x2 + 2*x3 - 2)*(2*x1 + x2 + x3 - 1)^2 + 140*(2*x1 + x2 + x3 - 1)^3) + 1/8*(14*x3 - 1)*(3*(x2 + x3 - 1)^4 - 30*(x2 + x3 - 1)^2*(2*x1 + x2 + x3 - 1)^2 + 35*(2*x1 + x2 + x3 - 1)^4) + 7/4*(11*x2 + x3 - 1)*(3*(x2 + x3 - 1)^4 - 30*(x2 + x3 - 1)^2*(2*x1 + x2 + x3 - 1)^2 + 35*(2*x1 + x2 + x3 - 1)^4);
  (-(108*x2*(x3 - 1)^2 + 37*(x3 - 1)^3 - 39*(x3 - 1)*(2*x2 + x3 - 1)^2))*(12*(x2 + x3 - 1)^3 - 30*(x2 + x3 - 1)^2*(4*x1 + 2*x2 + 2*x3 - 2) - 30*(2*x2 + 2*x3 - 2)*(2*x1 + x2 + x3 - 1)^2 + 140*(2*x1 + x2 + x3 - 1)^3)/(16*x3 - 16) - (3*(x2 + x3 - 1)^4 - 30*(x2 + x3 - 1)^2*(2*x1 + x2 + x3 - 1)^2 + 35*(2*x1 + x2 + x3 - 1)^4)*(108*x2*(2*x3 - 2) + 111*(x3 - 1)^2 - 39*(x3 - 1)*(4*x2 + 2*x3 - 2) - 39*(2*x2 + x3 - 1)^2)/(16*x3 - 16) + 16*(108*x2*(x3 - 1)^2 + 37*(x3 - 1)^3 - 39*(x3 - 1)*(2*x2 + x3 - 1)^2)*(3*(x2 + x3 - 1)^4 - 30*(x2 + x3 - 1)^2*(2*x1 + x2 + x3 - 1)^2 + 35*(2*x1 + x2 + x3 - 1)^4)/(16*x3 - 16)^2;
  1/8*(14*x3 - 1)*(150*x1*(x2 + x3 - 1)^4 - 315*(-x2 - x3 + 1)*((-2)*x1 - x2 - x3 + 1)^4 + 90*(x2 + x3 - 1)^5 - 210*(x2 + x3 - 1)^3*((-2)*x1 - x2 - x3 + 1)^2 + 210*(x2 + x3 - 1)^2*((-2)*x1 - x2 - x3 + 1)^3 - 63*((-2)*x1 - x2 - x3 + 1)^5)/(x2 + x3 - 1) - 1/8*(14*x3 - 1)*(30*x1*(x2 + x3 - 1)^5 + 63*(-x2 - x3 + 1)*((-2)*x1 - x2 - x3 + 1)^5 + 15*(x2 + x3 - 1)^6 + 70*(x2 + x3 - 1)^3*((-2)*x1 - x2 - x3 + 1)^3)/(x2 + x3 - 1)^2 + 7/4*(30*x1*(x2 + x3 - 1)^5 + 63*(-x2 - x3 + 1)*((-2)*x1 - x2 - x3 + 1)^5 + 15*(x2 + x3 - 1)^6 + 70*(x2 + x3 - 1)^3*((-2)*x1 - x2 - x3 + 1)^3)/(x2 + x3 - 1);
  1/8*(13*x2 + x3 - 1)*(150*x1*(x2 + x3 - 1)^4 - 315*(-x2 - x3 + 1)*((-2)*x1 - x2 - x3 + 1)^4 + 90*(x2 + x3 - 1)^5 - 210*(x2 + x3 - 1)^3*((-2)*x1 - x2 - x3 + 1)^2 + 210*(x2 + x3 - 1)^2*((-2)*x1 - x2 - x3 + 1)^3 - 63*((-2)*x1 - x2 - x3 + 1)^5)/(x2 + x3 - 1) + 1/8*(30*x1*(x2 + x3 - 1)^5 + 63*(-x2 - x3 + 1)*((-2)*x1 - x2 - x3 + 1)^5 + 15*(x2 + x3 - 1)^6 + 70*(x2 + x3 - 1)^3*((-2)*x1 - x2 - x3 + 1)^3)/(x2 + x3 - 1) - 1/8*(13*x2 + x3 - 1)*(30*x1*(x2 + x3 - 1)^5 + 63*(-x2 - x3 + 1)*((-2)*x1 - x2 - x3 + 1)^5 + 15*(x2 + x3 - 1)^6 + 70*(x2 + x3 - 1)^3*((-2)*x1 - x2 - x3 + 1)^3)/(x2 + x3 - 1)^2;
  (-15)/8*(x2 + x3 - 1)^5 + 105/16*(x2 + x3 - 1)^4*(4*x1 + 2*x2 + 2*x3 - 2) + 105/4*(x2 + x3 - 1)^3*(2*x1 + x2 + x3 - 1)^2 - 315/4*(x2 + x3 - 1)^2*(2*x1 + x2 + x3 - 1)^3 - 315/16*(2*x2 + 2*x3 - 2)*(2*x1 + x2 + x3 - 1)^4 + 693/8*(2*x1 + x2 + x3 - 1)^5;
  80080*x3^6 - 210210*x3^5 + 210210*x3^4 - 100100*x3^3 + 23100*x3^2 - 2310*x3 + 70;
  99/8*x3 + 1001/8*(2*x3 - 1)^6 + 3003/16*(2*x3 - 1)^5 - 715/8*(2*x3 - 1)^3 - 165/8*(2*x3 - 1)^2 + 1/16*(3*x2 + x3 - 1)*((-2640)*x3 + 24024*(2*x3 - 1)^5 + 30030*(2*x3 - 1)^4 - 8580*(2*x3 - 1)^2 + 1518) - 83/16;
  (-(4*x2*(x3 - 1)^2 + 3*(x3 - 1)^3 - 5*(x3 - 1)*(2*x2 + x3 - 1)^2))*((-3120)*x3 + 21840*(2*x3 - 1)^4 + 32760*(2*x3 - 1)^3 + 10920*(2*x3 - 1)^2 + 960)/(32*x3 - 32) - (4*x2*(2*x3 - 2) + 9*(x3 - 1)^2 - 5*(x3 - 1)*(4*x2 + 2*x3 - 2) - 5*(2*x2 + x3 - 1)^2)*((-600)*x3 + 2184*(2*x3 - 1)^5 + 4095*(2*x3 - 1)^4 + 1820*(2*x3 - 1)^3 - 390*(2*x3 - 1)^2 + 283)/(32*x3 - 32) + 32*(4*x2*(x3 - 1)^2 + 3*(x3 - 1)^3 - 5*(x3 - 1)*(2*x2 + x3 - 1)^2)*((-600)*x3 + 2184*(2*x3 - 1)^5 + 4095*(2*x3 - 1)^4 + 1820*(2*x3 - 1)^3 - 390*(2*x3 - 1)^2 + 283)/(32*x3 - 32)^2;
  (-(4368*x3 + 3640*(2*x3 - 1)^3 + 5460*(2*x3 - 1)^2 - 2028))*(30*x2*(x3 - 1)^3 + 12*(x3 - 1)^4 + 15*(x3 - 1)^2*(2*x2 + x3 - 1)^2 - 35*(x3 - 1)*(2*x2 + x3 - 1)^3)/(32*x3 - 32) - (156*x3 + 455*(2*x3 - 1)^4 + 910*(2*x3 - 1)^3 + 546*(2*x3 - 1)^2 - 87)*(90*x2*(x3 - 1)^2 + 48*(x3 - 1)^3 + 15*(x3 - 1)^2*(4*x2 + 2*x3 - 2) - 105*(x3 - 1)*(2*x2 + x3 - 1)^2 + 15*(2*x3 - 2)*(2*x2 + x3 - 1)^2 - 35*(2*x2 + x3 - 1)^3)/(32*x3 - 32) + 32*(30*x2*(x3 - 1)^3 + 12*(x3 - 1)^4 + 15*(x3 - 1)^2*(2*x2 + x3 - 1)^2 - 35*(x3 - 1)*(2*x2 + x3 - 1)^3)*(156*x3 + 455*(2*x3 - 1)^4 + 910*(2*x3 - 1)^3 + 546*(2*x3 - 1)^2 - 87)/(32*x3 - 32)^2;
  1/32*(4200*x3 + 1680*(2*x3 - 1)^2 - 1512)*(24*x2*(x3 - 1)^3 + 15*(x3 - 1)^4 - 42*(x3 - 1)^2*(2*x2 + x3 - 1)^2 - 28*(x3 - 1)*(2*x2 + x3 - 1)^3 + 63*(2*x2 + x3 - 1)^4) + 1/32*(588*x3 + 280*(2*x3 - 1)^3 + 525*(2*x3 - 1)^2 - 249)*(72*x2*(x3 - 1)^2 + 60*(x3 - 1)^3 - 42*(x3 - 1)^2*(4*x2 + 2*x3 - 2) - 84*(x3 - 1)*(2*x2 + x3 - 1)^2 - 42*(2*x3 - 2)*(2*x2 + x3 - 1)^2 + 224*(2*x2 + x3 - 1)^3);
  1/16*(240*x3 - 30)*(70*x2*(x3 - 1)^5 - 105*(-x3 + 1)^2*((-2)*x2 - x3 + 1)^4 + 231*(-x3 + 1)*((-2)*x2 - x3 + 1)^5 + 30*(x3 - 1)^6 + 70*(x3 - 1)^4*((-2)*x2 - x3 + 1)^2 + 210*(x3 - 1)^3*((-2)*x2 - x3 + 1)^3)/(x3 - 1) + 1/16*(90*x3 + 30*(2*x3 - 1)^2 - 29)*(350*x2*(x3 - 1)^4 + 420*(-x3 + 1)^2*((-2)*x2 - x3 + 1)^3 - 1155*(-x3 + 1)*((-2)*x2 - x3 + 1)^4 + 180*(x3 - 1)^5 + 70*(x3 - 1)^4*(4*x2 + 2*x3 - 2) - 350*(x3 - 1)^3*((-2)*x2 - x3 + 1)^2 + 630*(x3 - 1)^2*((-2)*x2 - x3 + 1)^3 - 105*(2*x3 - 2)*((-2)*x2 - x3 + 1)^4 - 231*((-2)*x2 - x3 + 1)^5)/(x3 - 1) - 1/16*(90*x3 + 30*(2*x3 - 1)^2 - 29)*(70*x2*(x3 - 1)^5 - 105*(-x3 + 1)^2*((-2)*x2 - x3 + 1)^4 + 231*(-x3 + 1)*((-2)*x2 - x3 + 1)^5 + 30*(x3 - 1)^6 + 70*(x3 - 1)^4*((-2)*x2 - x3 + 1)^2 + 210*(x3 - 1)^3*((-2)*x2 - x3 + 1)^3)/(x3 - 1)^2;
  (-(16*x3 - 1))*(360*x2*(x3 - 1)^5 + 245*(x3 - 1)^6 - 135*(x3 - 1)^5*(4*x2 + 2*x3 - 2) - 1215*(x3 - 1)^4*(2*x2 + x3 - 1)^2 + 1260*(x3 - 1)^3*(2*x2 + x3 - 1)^3 + 2475*(x3 - 1)^2*(2*x2 + x3 - 1)^4 - 2574*(x3 - 1)*(2*x2 + x3 - 1)^5 + 198*(2*x3 - 2)*(2*x2 + x3 - 1)^5 - 429*(2*x2 + x3 - 1)^6)/(16*x3 - 16) - 16*(60*x2*(x3 - 1)^6 + 35*(x3 - 1)^7 - 135*(x3 - 1)^5*(2*x2 + x3 - 1)^2 - 180*(x3 - 1)^4*(2*x2 + x3 - 1)^3 + 495*(x3 - 1)^3*(2*x2 + x3 - 1)^4 + 198*(x3 - 1)^2*(2*x2 + x3 - 1)^5 - 429*(x3 - 1)*(2*x2 + x3 - 1)^6)/(16*x3 - 16) + 16*(16*x3 - 1)*(60*x2*(x3 - 1)^6 + 35*(x3 - 1)^7 - 135*(x3 - 1)^5*(2*x2 + x3 - 1)^2 - 180*(x3 - 1)^4*(2*x2 + x3 - 1)^3 + 495*(x3 - 1)^3*(2*x2 + x3 - 1)^4 + 198*(x3 - 1)^2*(2*x2 + x3 - 1)^5 - 429*(x3 - 1)*(2*x2 + x3 - 1)^6)/(16*x3 - 16)^2;
  1/128*((-4410)*x2*(x3 - 1)^6 - 10395*(-x3 + 1)^5*(2*x2 + x3 - 1)^2 + 31185*(-x3 + 1)^4*(2*x2 + x3 - 1)^3 - 13860*(-x3 + 1)^3*(2*x2 + x3 - 1)^4 - 45045*(-x3 + 1)*(2*x2 + x3 - 1)^6 - 2240*(x3 - 1)^7 - 945*(x3 - 1)^6*(4*x2 + 2*x3 - 2) - 5670*(x3 - 1)^5*(2*x2 + x3 - 1)^2 - 45045*(x3 - 1)^3*(2*x2 + x3 - 1)^4 - 45045*(x3 - 1)^2*(2*x2 + x3 - 1)^5 - 3003*(2*x3 - 2)*(2*x2 + x3 - 1)^6 + 6435*(2*x2 + x3 - 1)^7)/(x3 - 1) - 1/128*((-630)*x2*(x3 - 1)^7 - 3465*(-x3 + 1)^5*(2*x2 + x3 - 1)^3 + 3465*(-x3 + 1)^4*(2*x2 + x3 - 1)^4 - 6435*(-x3 + 1)*(2*x2 + x3 - 1)^7 - 280*(x3 - 1)^8 - 945*(x3 - 1)^6*(2*x2 + x3 - 1)^2 - 9009*(x3 - 1)^3*(2*x2 + x3 - 1)^5 - 3003*(x3 - 1)^2*(2*x2 + x3 - 1)^6)/(x3 - 1)^2;
  99/8*x3 + 1001/8*(2*x3 - 1)^6 + 3003/16*(2*x3 - 1)^5 - 715/8*(2*x3 - 1)^3 - 165/8*(2*x3 - 1)^2 + 1/16*(2*x1 + x2 + x3 - 1)*((-2640)*x3 + 24024*(2*x3 - 1)^5 + 30030*(2*x3 - 1)^4 - 8580*(2*x3 - 1)^2 + 1518) - 83/16;
  1/16*(5*x2 + x3 - 1)*(2*x1 + x2 + x3 - 1)*((-3120)*x3 + 21840*(2*x3 - 1)^4 + 32760*(2*x3 - 1)^3 + 10920*(2*x3 - 1)^2 + 960) + 1/16*(5*x2 + x3 - 1)*((-600)*x3 + 2184*(2*x3 - 1)^5 + 4095*(2*x3 - 1)^4 + 1820*(2*x3 - 1)^3 - 390*(2*x3 - 1)^2 + 283) + 1/16*(2*x1 + x2 + x3 - 1)*((-600)*x3 + 2184*(2*x3 - 1)^5 + 4095*(2*x3 - 1)^4 + 1820*(2*x3 - 1)^3 - 390*(2*x3 - 1)^2 + 283);
  (-(36*x2*(x3 - 1)^2 + 17*(x3 - 1)^3 - 21*(x3 - 1)*(2*x2 + x3 - 1)^2))*(2*x1 + x2 + x3 - 1)*(4368*x3 + 3640*(2*x3 - 1)^3 + 5460*(2*x3 - 1)^2 - 2028)/(16*x3 - 16) - (36*x2*(x3 - 1)^2 + 17*(x3 - 1)^3 - 21*(x3 - 1)*(2*x2 + x3 - 1)^2)*(156*x3 + 455*(2*x3 - 1)^4 + 910*(2*x3 - 1)^3 + 546*(2*x3 - 1)^2 - 87)/(16*x3 - 16) - (2*x1 + x2 + x3 - 1)*(36*x2*(2*x3 - 2) + 51*(x3 - 1)^2 - 21*(x3 - 1)*(4*x2 + 2*x3 - 2) - 21*(2*x2 + x3 - 1)^2)*(156*x3 + 455*(2*x3 - 1)^4 + 910*(2*x3 - 1)^3 + 546*(2*x3 - 1)^2 - 87)/(16*x3 - 16) + 16*(36*x2*(x3 - 1)^2 + 17*(x3 - 1)^3 - 21*(x3 - 1)*(2*x2 + x3 - 1)^2)*(2*x1 + x2 + x3 - 1)*(156*x3 + 455*(2*x3 - 1)^4 + 910*(2*x3 - 1)^3 + 546*(2*x3 - 1)^2 - 87)/(16*x3 - 16)^2;
  1/8*(4200*x3 + 1680*(2*x3 - 1)^2 - 1512)*(2*(x3 - 1)^3 - 21*(x3 - 1)*(2*x2 + x3 - 1)^2 + 21*(2*x2 + x3 - 1)^3)*(2*x1 + x2 + x3 - 1) + 1/8*(6*(x3 - 1)^2 - 21*(x3 - 1)*(4*x2 + 2*x3 - 2) + 42*(2*x2 + x3 - 1)^2)*(2*x1 + x2 + x3 - 1)*(588*x3 + 280*(2*x3 - 1)^3 + 525*(2*x3 - 1)^2 - 249) + 1/8*(2*(x3 - 1)^3 - 21*(x3 - 1)*(2*x2 + x3 - 1)^2 + 21*(2*x2 + x3 - 1)^3)*(588*x3 + 280*(2*x3 - 1)^3 + 525*(2*x3 - 1)^2 - 249);
  1/8*(240*x3 - 30)*(2*x1 + x2 + x3 - 1)*(88*x2*(x3 - 1)^3 + 41*(x3 - 1)^4 - 18*(x3 - 1)^2*(2*x2 + x3 - 1)^2 - 180*(x3 - 1)*(2*x2 + x3 - 1)^3 + 165*(2*x2 + x3 - 1)^4) + 1/8*(90*x3 + 30*(2*x3 - 1)^2 - 29)*(2*x1 + x2 + x3 - 1)*(264*x2*(x3 - 1)^2 + 164*(x3 - 1)^3 - 18*(x3 - 1)^2*(4*x2 + 2*x3 - 2) - 540*(x3 - 1)*(2*x2 + x3 - 1)^2 - 18*(2*x3 - 2)*(2*x2 + x3 - 1)^2 + 480*(2*x2 + x3 - 1)^3) + 1/8*(90*x3 + 30*(2*x3 - 1)^2 - 29)*(88*x2*(x3 - 1)^3 + 41*(x3 - 1)^4 - 18*(x3 - 1)^2*(2*x2 + x3 - 1)^2 - 180*(x3 - 1)*(2*x2 + x3 - 1)^3 + 165*(2*x2 + x3 - 1)^4);
  1/32*(16*x3 - 1)*(2*x1 + x2 + x3 - 1)*((-450)*x2*(x3 - 1)^4 + 420*(-x3 + 1)^5 + 5940*(-x3 + 1)^2*((-2)*x2 - x3 + 1)^3 - 6435*(-x3 + 1)*((-2)*x2 - x3 + 1)^4 + 630*(x3 - 1)^4*(4*x2 + 2*x3 - 2) + 1530*(x3 - 1)^3*((-2)*x2 - x3 + 1)^2 + 990*(x3 - 1)^2*((-2)*x2 - x3 + 1)^3 - 1485*(2*x3 - 2)*((-2)*x2 - x3 + 1)^4 - 1287*((-2)*x2 - x3 + 1)^5)/(x3 - 1) + 1/32*(16*x3 - 1)*((-90)*x2*(x3 - 1)^5 - 70*(-x3 + 1)^6 - 1485*(-x3 + 1)^2*((-2)*x2 - x3 + 1)^4 + 1287*(-x3 + 1)*((-2)*x2 - x3 + 1)^5 + 630*(x3 - 1)^4*((-2)*x2 - x3 + 1)^2 + 330*(x3 - 1)^3*((-2)*x2 - x3 + 1)^3)/(x3 - 1) + 1/2*(2*x1 + x2 + x3 - 1)*((-90)*x2*(x3 - 1)^5 - 70*(-x3 + 1)^6 - 1485*(-x3 + 1)^2*((-2)*x2 - x3 + 1)^4 + 1287*(-x3 + 1)*((-2)*x2 - x3 + 1)^5 + 630*(x3 - 1)^4*((-2)*x2 - x3 + 1)^2 + 330*(x3 - 1)^3*((-2)*x2 - x3 + 1)^3)/(x3 - 1) - 1/32*(16*x3 - 1)*(2*x1 + x2 + x3 - 1)*((-90)*x2*(x3 - 1)^5 - 70*(-x3 + 1)^6 - 1485*(-x3 + 1)^2*((-2)*x2 - x3 + 1)^4 + 1287*(-x3 + 1)*((-2)*x2 - x3 + 1)^5 + 630*(x3 - 1)^4*((-2)*x2 - x3 + 1)^2 + 330*(x3 - 1)^3*((-2)*x2 - x3 + 1)^3)/(x3 - 1)^2;
  (-(2*x1 + x2 + x3 - 1))*(4680*x2*(x3 - 1)^5 + 2555*(x3 - 1)^6 + 165*(x3 - 1)^5*(4*x2 + 2*x3 - 2) - 10395*(x3 - 1)^4*(2*x2 + x3 - 1)^2 - 6380*(x3 - 1)^3*(2*x2 + x3 - 1)^3 + 36465*(x3 - 1)^2*(2*x2 + x3 - 1)^4 - 30030*(x3 - 1)*(2*x2 + x3 - 1)^5 + 6006*(2*x3 - 2)*(2*x2 + x3 - 1)^5 - 5005*(2*x2 + x3 - 1)^6)/(64*x3 - 64) - (780*x2*(x3 - 1)^6 + 365*(x3 - 1)^7 + 165*(x3 - 1)^5*(2*x2 + x3 - 1)^2 - 3740*(x3 - 1)^4*(2*x2 + x3 - 1)^3 + 2145*(x3 - 1)^3*(2*x2 + x3 - 1)^4 + 6006*(x3 - 1)^2*(2*x2 + x3 - 1)^5 - 5005*(x3 - 1)*(2*x2 + x3 - 1)^6)/(64*x3 - 64) + 64*(2*x1 + x2 + x3 - 1)*(780*x2*(x3 - 1)^6 + 365*(x3 - 1)^7 + 165*(x3 - 1)^5*(2*x2 + x3 - 1)^2 - 3740*(x3 - 1)^4*(2*x2 + x3 - 1)^3 + 2145*(x3 - 1)^3*(2*x2 + x3 - 1)^4 + 6006*(x3 - 1)^2*(2*x2 + x3 - 1)^5 - 5005*(x3 - 1)*(2*x2 + x3 - 1)^6)/(64*x3 - 64)^2;
  1/32*(-(x2 + x3 - 1)^2 + 3*(2*x1 + x2 + x3 - 1)^2)*((-3120)*x3 + 21840*(2*x3 - 1)^4 + 32760*(2*x3 - 1)^3 + 10920*(2*x3 - 1)^2 + 960) + 1/32*(12*x1 + 4*x2 + 4*x3 - 4)*((-600)*x3 + 2184*(2*x3 - 1)^5 + 4095*(2*x3 - 1)^4 + 1820*(2*x3 - 1)^3 - 390*(2*x3 - 1)^2 + 283);
  1/8*(-(x2 + x3 - 1)^2 + 3*(2*x1 + x2 + x3 - 1)^2)*(7*x2 + x3 - 1)*(4368*x3 + 3640*(2*x3 - 1)^3 + 5460*(2*x3 - 1)^2 - 2028) + 1/8*(-(x2 + x3 - 1)^2 + 3*(2*x1 + x2 + x3 - 1)^2)*(156*x3 + 455*(2*x3 - 1)^4 + 910*(2*x3 - 1)^3 + 546*(2*x3 - 1)^2 - 87) + 1/8*(7*x2 + x3 - 1)*(12*x1 + 4*x2 + 4*x3 - 4)*(156*x3 + 455*(2*x3 - 1)^4 + 910*(2*x3 - 1)^3 + 546*(2*x3 - 1)^2 - 87);
  ((x2 + x3 - 1)^2 - 3*(2*x1 + x2 + x3 - 1)^2)*(4200*x3 + 1680*(2*x3 - 1)^2 - 1512)*(20*x2*(x3 - 1)^2 + 8*(x3 - 1)^3 - 9*(x3 - 1)*(2*x2 + x3 - 1)^2)/(8*x3 - 8) + ((x2 + x3 - 1)^2 - 3*(2*x1 + x2 + x3 - 1)^2)*(588*x3 + 280*(2*x3 - 1)^3 + 525*(2*x3 - 1)^2 - 249)*(20*x2*(2*x3 - 2) + 24*(x3 - 1)^2 - 9*(x3 - 1)*(4*x2 + 2*x3 - 2) - 9*(2*x2 + x3 - 1)^2)/(8*x3 - 8) + (20*x2*(x3 - 1)^2 + 8*(x3 - 1)^3 - 9*(x3 - 1)*(2*x2 + x3 - 1)^2)*((-12)*x1 - 4*x2 - 4*x3 + 4)*(588*x3 + 280*(2*x3 - 1)^3 + 525*(2*x3 - 1)^2 - 249)/(8*x3 - 8) - 8*((x2 + x3 - 1)^2 - 3*(2*x1 + x2 + x3 - 1)^2)*(20*x2*(x3 - 1)^2 + 8*(x3 - 1)^3 - 9*(x3 - 1)*(2*x2 + x3 - 1)^2)*(588*x3 + 280*(2*x3 - 1)^3 + 525*(2*x3 - 1)^2 - 249)/(8*x3 - 8)^2;
  1/16*(240*x3 - 30)*(-(x2 + x3 - 1)^2 + 3*(2*x1 + x2 + x3 - 1)^2)*(126*x2*(x3 - 1)^3 - 225*(-x3 + 1)^2*((-2)*x2 - x3 + 1)^2 + 165*(-x3 + 1)*((-2)*x2 - x3 + 1)^3 + 68*(x3 - 1)^4)/(x3 - 1) + 1/16*(-(x2 + x3 - 1)^2 + 3*(2*x1 + x2 + x3 - 1)^2)*(90*x3 + 30*(2*x3 - 1)^2 - 29)*(378*x2*(x3 - 1)^2 - 225*(-x3 + 1)^2*(4*x2 + 2*x3 - 2) - 495*(-x3 + 1)*((-2)*x2 - x3 + 1)^2 + 272*(x3 - 1)^3 - 225*(2*x3 - 2)*((-2)*x2 - x3 + 1)^2 - 165*((-2)*x2 - x3 + 1)^3)/(x3 - 1) + 1/16*(90*x3 + 30*(2*x3 - 1)^2 - 29)*(12*x1 + 4*x2 + 4*x3 - 4)*(126*x2*(x3 - 1)^3 - 225*(-x3 + 1)^2*((-2)*x2 - x3 + 1)^2 + 165*(-x3 + 1)*((-2)*x2 - x3 + 1)^3 + 68*(x3 - 1)^4)/(x3 - 1) - 1/16*(-(x2 + x3 - 1)^2 + 3*(2*x1 + x2 + x3 - 1)^2)*(90*x3 + 30*(2*x3 - 1)^2 - 29)*(126*x2*(x3 - 1)^3 - 225*(-x3 + 1)^2*((-2)*x2 - x3 + 1)^2 + 165*(-x3 + 1)*((-2)*x2 - x3 + 1)^3 + 68*(x3 - 1)^4)/(x3 - 1)^2;
  1/32*(16*x3 - 1)*(-(x2 + x3 - 1)^2 + 3*(2*x1 + x2 + x3 - 1)^2)*(600*x2*(x3 - 1)^2 + 284*(x3 - 1)^3 + 330*(x3 - 1)^2*(4*x2 + 2*x3 - 2) - 3300*(x3 - 1)*(2*x2 + x3 - 1)^2 + 330*(2*x3 - 2)*(2*x2 + x3 - 1)^2 + 1760*(2*x2 + x3 - 1)^3) + 1/32*(16*x3 - 1)*(12*x1 + 4*x2 + 4*x3 - 4)*(200*x2*(x3 - 1)^3 + 71*(x3 - 1)^4 + 330*(x3 - 1)^2*(2*x2 + x3 - 1)^2 - 1100*(x3 - 1)*(2*x2 + x3 - 1)^3 + 715*(2*x2 + x3 - 1)^4) + 1/2*(-(x2 + x3 - 1)^2 + 3*(2*x1 + x2 + x3 - 1)^2)*(200*x2*(x3 - 1)^3 + 71*(x3 - 1)^4 + 330*(x3 - 1)^2*(2*x2 + x3 - 1)^2 - 1100*(x3 - 1)*(2*x2 + x3 - 1)^3 + 715*(2*x2 + x3 - 1)^4);
  ((x2 + x3 - 1)^2 - 3*(2*x1 + x2 + x3 - 1)^2)*(3850*x2*(x3 - 1)^4 + 2316*(x3 - 1)^5 - 990*(x3 - 1)^4*(4*x2 + 2*x3 - 2) - 8250*(x3 - 1)^3*(2*x2 + x3 - 1)^2 + 15730*(x3 - 1)^2*(2*x2 + x3 - 1)^3 - 15015*(x3 - 1)*(2*x2 + x3 - 1)^4 + 5005*(2*x3 - 2)*(2*x2 + x3 - 1)^4 - 3003*(2*x2 + x3 - 1)^5)/(64*x3 - 64) + ((-12)*x1 - 4*x2 - 4*x3 + 4)*(770*x2*(x3 - 1)^5 + 386*(x3 - 1)^6 - 990*(x3 - 1)^4*(2*x2 + x3 - 1)^2 - 1430*(x3 - 1)^3*(2*x2 + x3 - 1)^3 + 5005*(x3 - 1)^2*(2*x2 + x3 - 1)^4 - 3003*(x3 - 1)*(2*x2 + x3 - 1)^5)/(64*x3 - 64) - 64*((x2 + x3 - 1)^2 - 3*(2*x1 + x2 + x3 - 1)^2)*(770*x2*(x3 - 1)^5 + 386*(x3 - 1)^6 - 990*(x3 - 1)^4*(2*x2 + x3 - 1)^2 - 1430*(x3 - 1)^3*(2*x2 + x3 - 1)^3 + 5005*(x3 - 1)^2*(2*x2 + x3 - 1)^4 - 3003*(x3 - 1)*(2*x2 + x3 - 1)^5)/(64*x3 - 64)^2;
  (-(6*x1*(x2 + x3 - 1)^3 + 3*(x2 + x3 - 1)^4 - 5*(x2 + x3 - 1)*(2*x1 + x2 + x3 - 1)^3))*(4368*x3 + 3640*(2*x3 - 1)^3 + 5460*(2*x3 - 1)^2 - 2028)/(8*x2 + 8*x3 - 8) - (18*x1*(x2 + x3 - 1)^2 + 12*(x2 + x3 - 1)^3 - 15*(x2 + x3 - 1)*(2*x1 + x2 + x3 - 1)^2 - 5*(2*x1 + x2 + x3 - 1)^3)*(156*x3 + 455*(2*x3 - 1)^4 + 910*(2*x3 - 1)^3 + 546*(2*x3 - 1)^2 - 87)/(8*x2 + 8*x3 - 8) + 8*(6*x1*(x2 + x3 - 1)^3 + 3*(x2 + x3 - 1)^4 - 5*(x2 + x3 - 1)*(2*x1 + x2 + x3 - 1)^3)*(156*x3 + 455*(2*x3 - 1)^4 + 910*(2*x3 - 1)^3 + 546*(2*x3 - 1)^2 - 87)/(8*x2 + 8*x3 - 8)^2;
  1/8*(9*x2 + x3 - 1)*(4200*x3 + 1680*(2*x3 - 1)^2 - 1512)*(6*x1*(x2 + x3 - 1)^3 + 5*(-x2 - x3 + 1)*(2*x1 + x2 + x3 - 1)^3 + 3*(x2 + x3 - 1)^4)/(-x2 - x3 + 1) + 1/8*(9*x2 + x3 - 1)*(588*x3 + 280*(2*x3 - 1)^3 + 525*(2*x3 - 1)^2 - 249)*(18*x1*(x2 + x3 - 1)^2 + 15*(-x2 - x3 + 1)*(2*x1 + x2 + x3 - 1)^2 + 12*(x2 + x3 - 1)^3 - 5*(2*x1 + x2 + x3 - 1)^3)/(-x2 - x3 + 1) + 1/8*(6*x1*(x2 + x3 - 1)^3 + 5*(-x2 - x3 + 1)*(2*x1 + x2 + x3 - 1)^3 + 3*(x2 + x3 - 1)^4)*(588*x3 + 280*(2*x3 - 1)^3 + 525*(2*x3 - 1)^2 - 249)/(-x2 - x3 + 1) + 1/8*(9*x2 + x3 - 1)*(6*x1*(x2 + x3 - 1)^3 + 5*(-x2 - x3 + 1)*(2*x1 + x2 + x3 - 1)^3 + 3*(x2 + x3 - 1)^4)*(588*x3 + 280*(2*x3 - 1)^3 + 525*(2*x3 - 1)^2 - 249)/(-x2 - x3 + 1)^2;
  1/8*(240*x3 - 30)*(6*x1*(x2 + x3 - 1)^3 + 5*(-x2 - x3 + 1)*(2*x1 + x2 + x3 - 1)^3 + 3*(x2 + x3 - 1)^4)*(140*x2*(x3 - 1)^2 + 55*(-x3 + 1)*((-2)*x2 - x3 + 1)^2 + 51*(x3 - 1)^3)/((x3 - 1)*(x2 + x3 - 1)) + 1/8*(90*x3 + 30*(2*x3 - 1)^2 - 29)*(6*x1*(x2 + x3 - 1)^3 + 5*(-x2 - x3 + 1)*(2*x1 + x2 + x3 - 1)^3 + 3*(x2 + x3 - 1)^4)*(140*x2*(2*x3 - 2) + 55*(-x3 + 1)*(4*x2 + 2*x3 - 2) + 153*(x3 - 1)^2 - 55*((-2)*x2 - x3 + 1)^2)/((x3 - 1)*(x2 + x3 - 1)) + 1/8*(90*x3 + 30*(2*x3 - 1)^2 - 29)*(140*x2*(x3 - 1)^2 + 55*(-x3 + 1)*((-2)*x2 - x3 + 1)^2 + 51*(x3 - 1)^3)*(18*x1*(x2 + x3 - 1)^2 + 15*(-x2 - x3 + 1)*(2*x1 + x2 + x3 - 1)^2 + 12*(x2 + x3 - 1)^3 - 5*(2*x1 + x2 + x3 - 1)^3)/((x3 - 1)*(x2 + x3 - 1)) - 1/8*(90*x3 + 30*(2*x3 - 1)^2 - 29)*(6*x1*(x2 + x3 - 1)^3 + 5*(-x2 - x3 + 1)*(2*x1 + x2 + x3 - 1)^3 + 3*(x2 + x3 - 1)^4)*(140*x2*(x3 - 1)^2 + 55*(-x3 + 1)*((-2)*x2 - x3 + 1)^2 + 51*(x3 - 1)^3)/((x3 - 1)*(x2 + x3 - 1)^2) - 1/8*(90*x3 + 30*(2*x3 - 1)^2 - 29)*(6*x1*(x2 + x3 - 1)^3 + 5*(-x2 - x3 + 1)*(2*x1 + x2 + x3 - 1)^3 + 3*(x2 + x3 - 1)^4)*(140*x2*(x3 - 1)^2 + 55*(-x3 + 1)*((-2)*x2 - x3 + 1)^2 + 51*(x3 - 1)^3)/((x3 - 1)^2*(x2 + x3 - 1));
  (-(16*x3 - 1))*(6*x1*(x2 + x3 - 1)^3 + 3*(x2 + x3 - 1)^4 - 5*(x2 + x3 - 1)*(2*x1 + x2 + x3 - 1)^3)*(198*x2*(2*x3 - 2) + 276*(x3 - 1)^2 - 231*(x3 - 1)*(4*x2 + 2*x3 - 2) + 198*(2*x2 + x3 - 1)^2)/(8*x2 + 8*x3 - 8) - (16*x3 - 1)*(18*x1*(x2 + x3 - 1)^2 + 12*(x2 + x3 - 1)^3 - 15*(x2 + x3 - 1)*(2*x1 + x2 + x3 - 1)^2 - 5*(2*x1 + x2 + x3 - 1)^3)*(198*x2*(x3 - 1)^2 + 92*(x3 - 1)^3 - 231*(x3 - 1)*(2*x2 + x3 - 1)^2 + 143*(2*x2 + x3 - 1)^3)/(8*x2 + 8*x3 - 8) + 8*(16*x3 - 1)*(6*x1*(x2 + x3 - 1)^3 + 3*(x2 + x3 - 1)^4 - 5*(x2 + x3 - 1)*(2*x1 + x2 + x3 - 1)^3)*(198*x2*(x3 - 1)^2 + 92*(x3 - 1)^3 - 231*(x3 - 1)*(2*x2 + x3 - 1)^2 + 143*(2*x2 + x3 - 1)^3)/(8*x2 + 8*x3 - 8)^2 - 16*(6*x1*(x2 + x3 - 1)^3 + 3*(x2 + x3 - 1)^4 - 5*(x2 + x3 - 1)*(2*x1 + x2 + x3 - 1)^3)*(198*x2*(x3 - 1)^2 + 92*(x3 - 1)^3 - 231*(x3 - 1)*(2*x2 + x3 - 1)^2 + 143*(2*x2 + x3 - 1)^3)/(8*x2 + 8*x3 - 8);
  (6*x1*(x2 + x3 - 1)^3 + 3*(x2 + x3 - 1)^4 - 5*(x2 + x3 - 1)*(2*x1 + x2 + x3 - 1)^3)*(504*x2*(x3 - 1)^2 + 508*(x3 - 1)^3 - 1326*(x3 - 1)^2*(4*x2 + 2*x3 - 2) + 7644*(x3 - 1)*(2*x2 + x3 - 1)^2 - 1326*(2*x3 - 2)*(2*x2 + x3 - 1)^2 - 2912*(2*x2 + x3 - 1)^3)/(32*x2 + 32*x3 - 32) + (18*x1*(x2 + x3 - 1)^2 + 12*(x2 + x3 - 1)^3 - 15*(x2 + x3 - 1)*(2*x1 + x2 + x3 - 1)^2 - 5*(2*x1 + x2 + x3 - 1)^3)*(168*x2*(x3 - 1)^3 + 127*(x3 - 1)^4 - 1326*(x3 - 1)^2*(2*x2 + x3 - 1)^2 + 2548*(x3 - 1)*(2*x2 + x3 - 1)^3 - 1365*(2*x2 + x3 - 1)^4)/(32*x2 + 32*x3 - 32) - 32*(6*x1*(x2 + x3 - 1)^3 + 3*(x2 + x3 - 1)^4 - 5*(x2 + x3 - 1)*(2*x1 + x2 + x3 - 1)^3)*(168*x2*(x3 - 1)^3 + 127*(x3 - 1)^4 - 1326*(x3 - 1)^2*(2*x2 + x3 - 1)^2 + 2548*(x3 - 1)*(2*x2 + x3 - 1)^3 - 1365*(2*x2 + x3 - 1)^4)/(32*x2 + 32*x3 - 32)^2;
  1/32*(4200*x3 + 1680*(2*x3 - 1)^2 - 1512)*(3*(x2 + x3 - 1)^4 - 30*(x2 + x3 - 1)^2*(2*x1 + x2 + x3 - 1)^2 + 35*(2*x1 + x2 + x3 - 1)^4) + 1/32*(588*x3 + 280*(2*x3 - 1)^3 + 525*(2*x3 - 1)^2 - 249)*(12*(x2 + x3 - 1)^3 - 30*(x2 + x3 - 1)^2*(4*x1 + 2*x2 + 2*x3 - 2) - 30*(2*x2 + 2*x3 - 2)*(2*x1 + x2 + x3 - 1)^2 + 140*(2*x1 + x2 + x3 - 1)^3);
  1/8*(240*x3 - 30)*(11*x2 + x3 - 1)*(3*(x2 + x3 - 1)^4 - 30*(x2 + x3 - 1)^2*(2*x1 + x2 + x3 - 1)^2 + 35*(2*x1 + x2 + x3 - 1)^4) + 1/8*(11*x2 + x3 - 1)*(90*x3 + 30*(2*x3 - 1)^2 - 29)*(12*(x2 + x3 - 1)^3 - 30*(x2 + x3 - 1)^2*(4*x1 + 2*x2 + 2*x3 - 2) - 30*(2*x2 + 2*x3 - 2)*(2*x1 + x2 + x3 - 1)^2 + 140*(2*x1 + x2 + x3 - 1)^3) + 1/8*(90*x3 + 30*(2*x3 - 1)^2 - 29)*(3*(x2 + x3 - 1)^4 - 30*(x2 + x3 - 1)^2*(2*x1 + x2 + x3 - 1)^2 + 35*(2*x1 + x2 + x3 - 1)^4);
  (-(16*x3 - 1))*(108*x2*(x3 - 1)^2 + 37*(x3 - 1)^3 - 39*(x3 - 1)*(2*x2 + x3 - 1)^2)*(12*(x2 + x3 - 1)^3 - 30*(x2 + x3 - 1)^2*(4*x1 + 2*x2 + 2*x3 - 2) - 30*(2*x2 + 2*x3 - 2)*(2*x1 + x2 + x3 - 1)^2 + 140*(2*x1 + x2 + x3 - 1)^3)/(16*x3 - 16) - (16*x3 - 1)*(3*(x2 + x3 - 1)^4 - 30*(x2 + x3 - 1)^2*(2*x1 + x2 + x3 - 1)^2 + 35*(2*x1 + x2 + x3 - 1)^4)*(108*x2*(2*x3 - 2) + 111*(x3 - 1)^2 - 39*(x3 - 1)*(4*x2 + 2*x3 - 2) - 39*(2*x2 + x3 - 1)^2)/(16*x3 - 16) - 16*(108*x2*(x3 - 1)^2 + 37*(x3 - 1)^3 - 39*(x3 - 1)*(2*x2 + x3 - 1)^2)*(3*(x2 + x3 - 1)^4 - 30*(x2 + x3 - 1)^2*(2*x1 + x2 + x3 - 1)^2 + 35*(2*x1 + x2 + x3 - 1)^4)/(16*x3 - 16) + 16*(16*x3 - 1)*(108*x2*(x3 - 1)^2 + 37*(x3 - 1)^3 - 39*(x3 - 1)*(2*x2 + x3 - 1)^2)*(3*(x2 + x3 - 1)^4 - 30*(x2 + x3 - 1)^2*(2*x1 + x2 + x3 - 1)^2 + 35*(2*x1 + x2 + x3 - 1)^4)/(16*x3 - 16)^2;
  1/64*(3*(x2 + x3 - 1)^4 - 30*(x2 + x3 - 1)^2*(2*x1 + x2 + x3 - 1)^2 + 35*(2*x1 + x2 + x3 - 1)^4)*(2574*x2*(x3 - 1)^2 - 819*(-x3 + 1)^2*(4*x2 + 2*x3 - 2) - 1365*(-x3 + 1)*((-2)*x2 - x3 + 1)^2 + 1488*(x3 - 1)^3 - 819*(2*x3 - 2)*((-2)*x2 - x3 + 1)^2 - 455*((-2)*x2 - x3 + 1)^3)/(x3 - 1) + 1/64*(858*x2*(x3 - 1)^3 - 819*(-x3 + 1)^2*((-2)*x2 - x3 + 1)^2 + 455*(-x3 + 1)*((-2)*x2 - x3 + 1)^3 + 372*(x3 - 1)^4)*(12*(x2 + x3 - 1)^3 - 30*(x2 + x3 - 1)^2*(4*x1 + 2*x2 + 2*x3 - 2) - 30*(2*x2 + 2*x3 - 2)*(2*x1 + x2 + x3 - 1)^2 + 140*(2*x1 + x2 + x3 - 1)^3)/(x3 - 1) - 1/64*(3*(x2 + x3 - 1)^4 - 30*(x2 + x3 - 1)^2*(2*x1 + x2 + x3 - 1)^2 + 35*(2*x1 + x2 + x3 - 1)^4)*(858*x2*(x3 - 1)^3 - 819*(-x3 + 1)^2*((-2)*x2 - x3 + 1)^2 + 455*(-x3 + 1)*((-2)*x2 - x3 + 1)^3 + 372*(x3 - 1)^4)/(x3 - 1)^2;
  1/8*(240*x3 - 30)*(30*x1*(x2 + x3 - 1)^5 + 63*(-x2 - x3 + 1)*((-2)*x1 - x2 - x3 + 1)^5 + 15*(x2 + x3 - 1)^6 + 70*(x2 + x3 - 1)^3*((-2)*x1 - x2 - x3 + 1)^3)/(x2 + x3 - 1) + 1/8*(90*x3 + 30*(2*x3 - 1)^2 - 29)*(150*x1*(x2 + x3 - 1)^4 - 315*(-x2 - x3 + 1)*((-2)*x1 - x2 - x3 + 1)^4 + 90*(x2 + x3 - 1)^5 - 210*(x2 + x3 - 1)^3*((-2)*x1 - x2 - x3 + 1)^2 + 210*(x2 + x3 - 1)^2*((-2)*x1 - x2 - x3 + 1)^3 - 63*((-2)*x1 - x2 - x3 + 1)^5)/(x2 + x3 - 1) - 1/8*(90*x3 + 30*(2*x3 - 1)^2 - 29)*(30*x1*(x2 + x3 - 1)^5 + 63*(-x2 - x3 + 1)*((-2)*x1 - x2 - x3 + 1)^5 + 15*(x2 + x3 - 1)^6 + 70*(x2 + x3 - 1)^3*((-2)*x1 - x2 - x3 + 1)^3)/(x2 + x3 - 1)^2;
  1/8*(16*x3 - 1)*(13*x2 + x3 - 1)*(150*x1*(x2 + x3 - 1)^4 - 315*(-x2 - x3 + 1)*((-2)*x1 - x2 - x3 + 1)^4 + 90*(x2 + x3 - 1)^5 - 210*(x2 + x3 - 1)^3*((-2)*x1 - x2 - x3 + 1)^2 + 210*(x2 + x3 - 1)^2*((-2)*x1 - x2 - x3 + 1)^3 - 63*((-2)*x1 - x2 - x3 + 1)^5)/(x2 + x3 - 1) + 1/8*(16*x3 - 1)*(30*x1*(x2 + x3 - 1)^5 + 63*(-x2 - x3 + 1)*((-2)*x1 - x2 - x3 + 1)^5 + 15*(x2 + x3 - 1)^6 + 70*(x2 + x3 - 1)^3*((-2)*x1 - x2 - x3 + 1)^3)/(x2 + x3 - 1) - 1/8*(16*x3 - 1)*(13*x2 + x3 - 1)*(30*x1*(x2 + x3 - 1)^5 + 63*(-x2 - x3 + 1)*((-2)*x1 - x2 - x3 + 1)^5 + 15*(x2 + x3 - 1)^6 + 70*(x2 + x3 - 1)^3*((-2)*x1 - x2 - x3 + 1)^3)/(x2 + x3 - 1)^2 + 2*(13*x2 + x3 - 1)*(30*x1*(x2 + x3 - 1)^5 + 63*(-x2 - x3 + 1)*((-2)*x1 - x2 - x3 + 1)^5 + 15*(x2 + x3 - 1)^6 + 70*(x2 + x3 - 1)^3*((-2)*x1 - x2 - x3 + 1)^3)/(x2 + x3 - 1);
  (-1)/32*(308*x2*(x3 - 1)^2 + 101*(x3 - 1)^3 - 105*(x3 - 1)*(2*x2 + x3 - 1)^2)*(150*x1*(x2 + x3 - 1)^4 + 90*(x2 + x3 - 1)^5 - 210*(x2 + x3 - 1)^3*(2*x1 + x2 + x3 - 1)^2 - 210*(x2 + x3 - 1)^2*(2*x1 + x2 + x3 - 1)^3 + 315*(x2 + x3 - 1)*(2*x1 + x2 + x3 - 1)^4 + 63*(2*x1 + x2 + x3 - 1)^5)/((x3 - 1)*(x2 + x3 - 1)) - 1/32*(30*x1*(x2 + x3 - 1)^5 + 15*(x2 + x3 - 1)^6 - 70*(x2 + x3 - 1)^3*(2*x1 + x2 + x3 - 1)^3 + 63*(x2 + x3 - 1)*(2*x1 + x2 + x3 - 1)^5)*(308*x2*(2*x3 - 2) + 303*(x3 - 1)^2 - 105*(x3 - 1)*(4*x2 + 2*x3 - 2) - 105*(2*x2 + x3 - 1)^2)/((x3 - 1)*(x2 + x3 - 1)) + 1/32*(308*x2*(x3 - 1)^2 + 101*(x3 - 1)^3 - 105*(x3 - 1)*(2*x2 + x3 - 1)^2)*(30*x1*(x2 + x3 - 1)^5 + 15*(x2 + x3 - 1)^6 - 70*(x2 + x3 - 1)^3*(2*x1 + x2 + x3 - 1)^3 + 63*(x2 + x3 - 1)*(2*x1 + x2 + x3 - 1)^5)/((x3 - 1)*(x2 + x3 - 1)^2) + 1/32*(308*x2*(x3 - 1)^2 + 101*(x3 - 1)^3 - 105*(x3 - 1)*(2*x2 + x3 - 1)^2)*(30*x1*(x2 + x3 - 1)^5 + 15*(x2 + x3 - 1)^6 - 70*(x2 + x3 - 1)^3*(2*x1 + x2 + x3 - 1)^3 + 63*(x2 + x3 - 1)*(2*x1 + x2 + x3 - 1)^5)/((x3 - 1)^2*(x2 + x3 - 1));
  1/16*(16*x3 - 1)*((-30)*(x2 + x3 - 1)^5 + 105*(x2 + x3 - 1)^4*(4*x1 + 2*x2 + 2*x3 - 2) + 420*(x2 + x3 - 1)^3*(2*x1 + x2 + x3 - 1)^2 - 1260*(x2 + x3 - 1)^2*(2*x1 + x2 + x3 - 1)^3 - 315*(2*x2 + 2*x3 - 2)*(2*x1 + x2 + x3 - 1)^4 + 1386*(2*x1 + x2 + x3 - 1)^5) - 5*(x2 + x3 - 1)^6 + 105*(x2 + x3 - 1)^4*(2*x1 + x2 + x3 - 1)^2 - 315*(x2 + x3 - 1)^2*(2*x1 + x2 + x3 - 1)^4 + 231*(2*x1 + x2 + x3 - 1)^6;
  (-5)/16*(x2 + x3 - 1)^6 + 105/16*(x2 + x3 - 1)^4*(2*x1 + x2 + x3 - 1)^2 - 315/16*(x2 + x3 - 1)^2*(2*x1 + x2 + x3 - 1)^4 + 1/16*(15*x2 + x3 - 1)*((-30)*(x2 + x3 - 1)^5 + 105*(x2 + x3 - 1)^4*(4*x1 + 2*x2 + 2*x3 - 2) + 420*(x2 + x3 - 1)^3*(2*x1 + x2 + x3 - 1)^2 - 1260*(x2 + x3 - 1)^2*(2*x1 + x2 + x3 - 1)^3 - 315*(2*x2 + 2*x3 - 2)*(2*x1 + x2 + x3 - 1)^4 + 1386*(2*x1 + x2 + x3 - 1)^5) + 231/16*(2*x1 + x2 + x3 - 1)^6;
  (-(490*x1*(x2 + x3 - 1)^6 + 280*(x2 + x3 - 1)^7 - 945*(x2 + x3 - 1)^5*(2*x1 + x2 + x3 - 1)^2 - 1575*(x2 + x3 - 1)^4*(2*x1 + x2 + x3 - 1)^3 + 3465*(x2 + x3 - 1)^3*(2*x1 + x2 + x3 - 1)^4 + 2079*(x2 + x3 - 1)^2*(2*x1 + x2 + x3 - 1)^5 - 3003*(x2 + x3 - 1)*(2*x1 + x2 + x3 - 1)^6 - 429*(2*x1 + x2 + x3 - 1)^7))/(16*x2 + 16*x3 - 16) + 16*(70*x1*(x2 + x3 - 1)^7 + 35*(x2 + x3 - 1)^8 - 315*(x2 + x3 - 1)^5*(2*x1 + x2 + x3 - 1)^3 + 693*(x2 + x3 - 1)^3*(2*x1 + x2 + x3 - 1)^5 - 429*(x2 + x3 - 1)*(2*x1 + x2 + x3 - 1)^7)/(16*x2 + 16*x3 - 16)^2;
  350064*x3^7 - 1089088*x3^6 + 1345344*x3^5 - 840840*x3^4 + 280280*x3^3 - 48048*x3^2 + 3696*x3 - 88;
  63/4*x3 + 1989/8*(2*x3 - 1)^7 + 1547/4*(2*x3 - 1)^6 - 273/8*(2*x3 - 1)^5 - 4095/16*(2*x3 - 1)^4 - 455/8*(2*x3 - 1)^3 + 273/8*(2*x3 - 1)^2 + 1/16*(3*x2 + x3 - 1)*(4368*x3 + 55692*(2*x3 - 1)^6 + 74256*(2*x3 - 1)^5 - 5460*(2*x3 - 1)^4 - 32760*(2*x3 - 1)^3 - 5460*(2*x3 - 1)^2 - 1932) - 133/16;
  (-(4*x2*(x3 - 1)^2 + 3*(x3 - 1)^3 - 5*(x3 - 1)*(2*x2 + x3 - 1)^2))*((-10920)*x3 + 55692*(2*x3 - 1)^5 + 92820*(2*x3 - 1)^4 + 32760*(2*x3 - 1)^3 - 10920*(2*x3 - 1)^2 + 5304)/(32*x3 - 32) - (4*x2*(2*x3 - 2) + 9*(x3 - 1)^2 - 5*(x3 - 1)*(4*x2 + 2*x3 - 2) - 5*(2*x2 + x3 - 1)^2)*((-156)*x3 + 4641*(2*x3 - 1)^6 + 9282*(2*x3 - 1)^5 + 4095*(2*x3 - 1)^4 - 1820*(2*x3 - 1)^3 - 1365*(2*x3 - 1)^2 + 107)/(32*x3 - 32) + 32*(4*x2*(x3 - 1)^2 + 3*(x3 - 1)^3 - 5*(x3 - 1)*(2*x2 + x3 - 1)^2)*((-156)*x3 + 4641*(2*x3 - 1)^6 + 9282*(2*x3 - 1)^5 + 4095*(2*x3 - 1)^4 - 1820*(2*x3 - 1)^3 - 1365*(2*x3 - 1)^2 + 107)/(32*x3 - 32)^2;
  (-(30*x2*(x3 - 1)^3 + 12*(x3 - 1)^4 + 15*(x3 - 1)^2*(2*x2 + x3 - 1)^2 - 35*(x3 - 1)*(2*x2 + x3 - 1)^3))*(1680*x3 + 10710*(2*x3 - 1)^4 + 19040*(2*x3 - 1)^3 + 9660*(2*x3 - 1)^2 - 1050)/(32*x3 - 32) - ((-210)*x3 + 1071*(2*x3 - 1)^5 + 2380*(2*x3 - 1)^4 + 1610*(2*x3 - 1)^3 + 210*(2*x3 - 1)^2 + 87)*(90*x2*(x3 - 1)^2 + 48*(x3 - 1)^3 + 15*(x3 - 1)^2*(4*x2 + 2*x3 - 2) - 105*(x3 - 1)*(2*x2 + x3 - 1)^2 + 15*(2*x3 - 2)*(2*x2 + x3 - 1)^2 - 35*(2*x2 + x3 - 1)^3)/(32*x3 - 32) + 32*(30*x2*(x3 - 1)^3 + 12*(x3 - 1)^4 + 15*(x3 - 1)^2*(2*x2 + x3 - 1)^2 - 35*(x3 - 1)*(2*x2 + x3 - 1)^3)*((-210)*x3 + 1071*(2*x3 - 1)^5 + 2380*(2*x3 - 1)^4 + 1610*(2*x3 - 1)^3 + 210*(2*x3 - 1)^2 + 87)/(32*x3 - 32)^2;
  1/32*(9840*x3 + 6120*(2*x3 - 1)^3 + 10200*(2*x3 - 1)^2 - 4320)*(24*x2*(x3 - 1)^3 + 15*(x3 - 1)^4 - 42*(x3 - 1)^2*(2*x2 + x3 - 1)^2 - 28*(x3 - 1)*(2*x2 + x3 - 1)^3 + 63*(2*x2 + x3 - 1)^4) + 1/32*(600*x3 + 765*(2*x3 - 1)^4 + 1700*(2*x3 - 1)^3 + 1230*(2*x3 - 1)^2 - 291)*(72*x2*(x3 - 1)^2 + 60*(x3 - 1)^3 - 42*(x3 - 1)^2*(4*x2 + 2*x3 - 2) - 84*(x3 - 1)*(2*x2 + x3 - 1)^2 - 42*(2*x3 - 2)*(2*x2 + x3 - 1)^2 + 224*(2*x2 + x3 - 1)^3);
  1/16*(1632*x3 + 612*(2*x3 - 1)^2 - 564)*(70*x2*(x3 - 1)^5 - 105*(-x3 + 1)^2*((-2)*x2 - x3 + 1)^4 + 231*(-x3 + 1)*((-2)*x2 - x3 + 1)^5 + 30*(x3 - 1)^6 + 70*(x3 - 1)^4*((-2)*x2 - x3 + 1)^2 + 210*(x3 - 1)^3*((-2)*x2 - x3 + 1)^3)/(x3 - 1) + 1/16*(252*x3 + 102*(2*x3 - 1)^3 + 204*(2*x3 - 1)^2 - 103)*(350*x2*(x3 - 1)^4 + 420*(-x3 + 1)^2*((-2)*x2 - x3 + 1)^3 - 1155*(-x3 + 1)*((-2)*x2 - x3 + 1)^4 + 180*(x3 - 1)^5 + 70*(x3 - 1)^4*(4*x2 + 2*x3 - 2) - 350*(x3 - 1)^3*((-2)*x2 - x3 + 1)^2 + 630*(x3 - 1)^2*((-2)*x2 - x3 + 1)^3 - 105*(2*x3 - 2)*((-2)*x2 - x3 + 1)^4 - 231*((-2)*x2 - x3 + 1)^5)/(x3 - 1) - 1/16*(252*x3 + 102*(2*x3 - 1)^3 + 204*(2*x3 - 1)^2 - 103)*(70*x2*(x3 - 1)^5 - 105*(-x3 + 1)^2*((-2)*x2 - x3 + 1)^4 + 231*(-x3 + 1)*((-2)*x2 - x3 + 1)^5 + 30*(x3 - 1)^6 + 70*(x3 - 1)^4*((-2)*x2 - x3 + 1)^2 + 210*(x3 - 1)^3*((-2)*x2 - x3 + 1)^3)/(x3 - 1)^2;
  (-(1224*x3 - 136))*(60*x2*(x3 - 1)^6 + 35*(x3 - 1)^7 - 135*(x3 - 1)^5*(2*x2 + x3 - 1)^2 - 180*(x3 - 1)^4*(2*x2 + x3 - 1)^3 + 495*(x3 - 1)^3*(2*x2 + x3 - 1)^4 + 198*(x3 - 1)^2*(2*x2 + x3 - 1)^5 - 429*(x3 - 1)*(2*x2 + x3 - 1)^6)/(64*x3 - 64) - (476*x3 + 153*(2*x3 - 1)^2 - 149)*(360*x2*(x3 - 1)^5 + 245*(x3 - 1)^6 - 135*(x3 - 1)^5*(4*x2 + 2*x3 - 2) - 1215*(x3 - 1)^4*(2*x2 + x3 - 1)^2 + 1260*(x3 - 1)^3*(2*x2 + x3 - 1)^3 + 2475*(x3 - 1)^2*(2*x2 + x3 - 1)^4 - 2574*(x3 - 1)*(2*x2 + x3 - 1)^5 + 198*(2*x3 - 2)*(2*x2 + x3 - 1)^5 - 429*(2*x2 + x3 - 1)^6)/(64*x3 - 64) + 64*(476*x3 + 153*(2*x3 - 1)^2 - 149)*(60*x2*(x3 - 1)^6 + 35*(x3 - 1)^7 - 135*(x3 - 1)^5*(2*x2 + x3 - 1)^2 - 180*(x3 - 1)^4*(2*x2 + x3 - 1)^3 + 495*(x3 - 1)^3*(2*x2 + x3 - 1)^4 + 198*(x3 - 1)^2*(2*x2 + x3 - 1)^5 - 429*(x3 - 1)*(2*x2 + x3 - 1)^6)/(64*x3 - 64)^2;
  (-(18*x3 - 1))*(4410*x2*(x3 - 1)^6 + 2240*(x3 - 1)^7 + 945*(x3 - 1)^6*(4*x2 + 2*x3 - 2) - 4725*(x3 - 1)^5*(2*x2 + x3 - 1)^2 - 31185*(x3 - 1)^4*(2*x2 + x3 - 1)^3 + 31185*(x3 - 1)^3*(2*x2 + x3 - 1)^4 + 45045*(x3 - 1)^2*(2*x2 + x3 - 1)^5 - 45045*(x3 - 1)*(2*x2 + x3 - 1)^6 + 3003*(2*x3 - 2)*(2*x2 + x3 - 1)^6 - 6435*(2*x2 + x3 - 1)^7)/(128*x3 - 128) + 128*(18*x3 - 1)*(630*x2*(x3 - 1)^7 + 280*(x3 - 1)^8 + 945*(x3 - 1)^6*(2*x2 + x3 - 1)^2 - 3465*(x3 - 1)^5*(2*x2 + x3 - 1)^3 - 3465*(x3 - 1)^4*(2*x2 + x3 - 1)^4 + 9009*(x3 - 1)^3*(2*x2 + x3 - 1)^5 + 3003*(x3 - 1)^2*(2*x2 + x3 - 1)^6 - 6435*(x3 - 1)*(2*x2 + x3 - 1)^7)/(128*x3 - 128)^2 - 18*(630*x2*(x3 - 1)^7 + 280*(x3 - 1)^8 + 945*(x3 - 1)^6*(2*x2 + x3 - 1)^2 - 3465*(x3 - 1)^5*(2*x2 + x3 - 1)^3 - 3465*(x3 - 1)^4*(2*x2 + x3 - 1)^4 + 9009*(x3 - 1)^3*(2*x2 + x3 - 1)^5 + 3003*(x3 - 1)^2*(2*x2 + x3 - 1)^6 - 6435*(x3 - 1)*(2*x2 + x3 - 1)^7)/(128*x3 - 128);
  245/8*x2*(x3 - 1)^6 + 385/32*(-x3 + 1)*(x3 - 1)^5*(4*x2 + 2*x3 - 2) + 4235/32*(-x3 + 1)*(x3 - 1)^4*(2*x2 + x3 - 1)^2 + 385/4*(-x3 + 1)*(x3 - 1)^3*(2*x2 + x3 - 1)^3 + 15015/16*(-x3 + 1)*(x3 - 1)*(2*x2 + x3 - 1)^5 + 15015/32*(-x3 + 1)*(2*x2 + x3 - 1)^6 + 315/16*(x3 - 1)^7 - 385/32*(x3 - 1)^5*(2*x2 + x3 - 1)^2 + 1155/4*(x3 - 1)^4*(2*x2 + x3 - 1)^3 + 5005/8*(x3 - 1)^3*(2*x2 + x3 - 1)^4 + 3003/16*(x3 - 1)^2*(2*x2 + x3 - 1)^5 - 5005/32*(x3 - 1)*(2*x2 + x3 - 1)^6 + 715*(2*x2 + x3 - 1)^7;
  63/4*x3 + 1989/8*(2*x3 - 1)^7 + 1547/4*(2*x3 - 1)^6 - 273/8*(2*x3 - 1)^5 - 4095/16*(2*x3 - 1)^4 - 455/8*(2*x3 - 1)^3 + 273/8*(2*x3 - 1)^2 + 1/16*(2*x1 + x2 + x3 - 1)*(4368*x3 + 55692*(2*x3 - 1)^6 + 74256*(2*x3 - 1)^5 - 5460*(2*x3 - 1)^4 - 32760*(2*x3 - 1)^3 - 5460*(2*x3 - 1)^2 - 1932) - 133/16;
  1/16*(5*x2 + x3 - 1)*(2*x1 + x2 + x3 - 1)*((-10920)*x3 + 55692*(2*x3 - 1)^5 + 92820*(2*x3 - 1)^4 + 32760*(2*x3 - 1)^3 - 10920*(2*x3 - 1)^2 + 5304) + 1/16*(5*x2 + x3 - 1)*((-156)*x3 + 4641*(2*x3 - 1)^6 + 9282*(2*x3 - 1)^5 + 4095*(2*x3 - 1)^4 - 1820*(2*x3 - 1)^3 - 1365*(2*x3 - 1)^2 + 107) + 1/16*(2*x1 + x2 + x3 - 1)*((-156)*x3 + 4641*(2*x3 - 1)^6 + 9282*(2*x3 - 1)^5 + 4095*(2*x3 - 1)^4 - 1820*(2*x3 - 1)^3 - 1365*(2*x3 - 1)^2 + 107);
  (-(36*x2*(x3 - 1)^2 + 17*(x3 - 1)^3 - 21*(x3 - 1)*(2*x2 + x3 - 1)^2))*(2*x1 + x2 + x3 - 1)*(1680*x3 + 10710*(2*x3 - 1)^4 + 19040*(2*x3 - 1)^3 + 9660*(2*x3 - 1)^2 - 1050)/(16*x3 - 16) - (36*x2*(x3 - 1)^2 + 17*(x3 - 1)^3 - 21*(x3 - 1)*(2*x2 + x3 - 1)^2)*((-210)*x3 + 1071*(2*x3 - 1)^5 + 2380*(2*x3 - 1)^4 + 1610*(2*x3 - 1)^3 + 210*(2*x3 - 1)^2 + 87)/(16*x3 - 16) - (2*x1 + x2 + x3 - 1)*(36*x2*(2*x3 - 2) + 51*(x3 - 1)^2 - 21*(x3 - 1)*(4*x2 + 2*x3 - 2) - 21*(2*x2 + x3 - 1)^2)*((-210)*x3 + 1071*(2*x3 - 1)^5 + 2380*(2*x3 - 1)^4 + 1610*(2*x3 - 1)^3 + 210*(2*x3 - 1)^2 + 87)/(16*x3 - 16) + 16*(36*x2*(x3 - 1)^2 + 17*(x3 - 1)^3 - 21*(x3 - 1)*(2*x2 + x3 - 1)^2)*(2*x1 + x2 + x3 - 1)*((-210)*x3 + 1071*(2*x3 - 1)^5 + 2380*(2*x3 - 1)^4 + 1610*(2*x3 - 1)^3 + 210*(2*x3 - 1)^2 + 87)/(16*x3 - 16)^2;
  1/8*(6*(x3 - 1)^2 - 21*(x3 - 1)*(4*x2 + 2*x3 - 2) + 42*(2*x2 + x3 - 1)^2)*(2*x1 + x2 + x3 - 1)*(600*x3 + 765*(2*x3 - 1)^4 + 1700*(2*x3 - 1)^3 + 1230*(2*x3 - 1)^2 - 291) + 1/8*(2*(x3 - 1)^3 - 21*(x3 - 1)*(2*x2 + x3 - 1)^2 + 21*(2*x2 + x3 - 1)^3)*(2*x1 + x2 + x3 - 1)*(9840*x3 + 6120*(2*x3 - 1)^3 + 10200*(2*x3 - 1)^2 - 4320) + 1/8*(2*(x3 - 1)^3 - 21*(x3 - 1)*(2*x2 + x3 - 1)^2 + 21*(2*x2 + x3 - 1)^3)*(600*x3 + 765*(2*x3 - 1)^4 + 1700*(2*x3 - 1)^3 + 1230*(2*x3 - 1)^2 - 291);
  1/8*(1632*x3 + 612*(2*x3 - 1)^2 - 564)*(2*x1 + x2 + x3 - 1)*(88*x2*(x3 - 1)^3 + 41*(x3 - 1)^4 - 18*(x3 - 1)^2*(2*x2 + x3 - 1)^2 - 180*(x3 - 1)*(2*x2 + x3 - 1)^3 + 165*(2*x2 + x3 - 1)^4) + 1/8*(2*x1 + x2 + x3 - 1)*(252*x3 + 102*(2*x3 - 1)^3 + 204*(2*x3 - 1)^2 - 103)*(264*x2*(x3 - 1)^2 + 164*(x3 - 1)^3 - 18*(x3 - 1)^2*(4*x2 + 2*x3 - 2) - 540*(x3 - 1)*(2*x2 + x3 - 1)^2 - 18*(2*x3 - 2)*(2*x2 + x3 - 1)^2 + 480*(2*x2 + x3 - 1)^3) + 1/8*(252*x3 + 102*(2*x3 - 1)^3 + 204*(2*x3 - 1)^2 - 103)*(88*x2*(x3 - 1)^3 + 41*(x3 - 1)^4 - 18*(x3 - 1)^2*(2*x2 + x3 - 1)^2 - 180*(x3 - 1)*(2*x2 + x3 - 1)^3 + 165*(2*x2 + x3 - 1)^4);
  1/128*(1224*x3 - 136)*(2*x1 + x2 + x3 - 1)*((-90)*x2*(x3 - 1)^5 - 70*(-x3 + 1)^6 - 1485*(-x3 + 1)^2*((-2)*x2 - x3 + 1)^4 + 1287*(-x3 + 1)*((-2)*x2 - x3 + 1)^5 + 630*(x3 - 1)^4*((-2)*x2 - x3 + 1)^2 + 330*(x3 - 1)^3*((-2)*x2 - x3 + 1)^3)/(x3 - 1) + 1/128*(476*x3 + 153*(2*x3 - 1)^2 - 149)*(2*x1 + x2 + x3 - 1)*((-450)*x2*(x3 - 1)^4 + 420*(-x3 + 1)^5 + 5940*(-x3 + 1)^2*((-2)*x2 - x3 + 1)^3 - 6435*(-x3 + 1)*((-2)*x2 - x3 + 1)^4 + 630*(x3 - 1)^4*(4*x2 + 2*x3 - 2) + 1530*(x3 - 1)^3*((-2)*x2 - x3 + 1)^2 + 990*(x3 - 1)^2*((-2)*x2 - x3 + 1)^3 - 1485*(2*x3 - 2)*((-2)*x2 - x3 + 1)^4 - 1287*((-2)*x2 - x3 + 1)^5)/(x3 - 1) + 1/128*(476*x3 + 153*(2*x3 - 1)^2 - 149)*((-90)*x2*(x3 - 1)^5 - 70*(-x3 + 1)^6 - 1485*(-x3 + 1)^2*((-2)*x2 - x3 + 1)^4 + 1287*(-x3 + 1)*((-2)*x2 - x3 + 1)^5 + 630*(x3 - 1)^4*((-2)*x2 - x3 + 1)^2 + 330*(x3 - 1)^3*((-2)*x2 - x3 + 1)^3)/(x3 - 1) - 1/128*(476*x3 + 153*(2*x3 - 1)^2 - 149)*(2*x1 + x2 + x3 - 1)*((-90)*x2*(x3 - 1)^5 - 70*(-x3 + 1)^6 - 1485*(-x3 + 1)^2*((-2)*x2 - x3 + 1)^4 + 1287*(-x3 + 1)*((-2)*x2 - x3 + 1)^5 + 630*(x3 - 1)^4*((-2)*x2 - x3 + 1)^2 + 330*(x3 - 1)^3*((-2)*x2 - x3 + 1)^3)/(x3 - 1)^2;
  (-(18*x3 - 1))*(2*x1 + x2 + x3 - 1)*(4680*x2*(x3 - 1)^5 + 2555*(x3 - 1)^6 + 165*(x3 - 1)^5*(4*x2 + 2*x3 - 2) - 10395*(x3 - 1)^4*(2*x2 + x3 - 1)^2 - 6380*(x3 - 1)^3*(2*x2 + x3 - 1)^3 + 36465*(x3 - 1)^2*(2*x2 + x3 - 1)^4 - 30030*(x3 - 1)*(2*x2 + x3 - 1)^5 + 6006*(2*x3 - 2)*(2*x2 + x3 - 1)^5 - 5005*(2*x2 + x3 - 1)^6)/(64*x3 - 64) - (18*x3 - 1)*(780*x2*(x3 - 1)^6 + 365*(x3 - 1)^7 + 165*(x3 - 1)^5*(2*x2 + x3 - 1)^2 - 3740*(x3 - 1)^4*(2*x2 + x3 - 1)^3 + 2145*(x3 - 1)^3*(2*x2 + x3 - 1)^4 + 6006*(x3 - 1)^2*(2*x2 + x3 - 1)^5 - 5005*(x3 - 1)*(2*x2 + x3 - 1)^6)/(64*x3 - 64) + 64*(18*x3 - 1)*(2*x1 + x2 + x3 - 1)*(780*x2*(x3 - 1)^6 + 365*(x3 - 1)^7 + 165*(x3 - 1)^5*(2*x2 + x3 - 1)^2 - 3740*(x3 - 1)^4*(2*x2 + x3 - 1)^3 + 2145*(x3 - 1)^3*(2*x2 + x3 - 1)^4 + 6006*(x3 - 1)^2*(2*x2 + x3 - 1)^5 - 5005*(x3 - 1)*(2*x2 + x3 - 1)^6)/(64*x3 - 64)^2 - 18*(2*x1 + x2 + x3 - 1)*(780*x2*(x3 - 1)^6 + 365*(x3 - 1)^7 + 165*(x3 - 1)^5*(2*x2 + x3 - 1)^2 - 3740*(x3 - 1)^4*(2*x2 + x3 - 1)^3 + 2145*(x3 - 1)^3*(2*x2 + x3 - 1)^4 + 6006*(x3 - 1)^2*(2*x2 + x3 - 1)^5 - 5005*(x3 - 1)*(2*x2 + x3 - 1)^6)/(64*x3 - 64);
  1/32*(2*x1 + x2 + x3 - 1)*(1078*x2*(x3 - 1)^6 - 924*(-x3 + 1)^6*(4*x2 + 2*x3 - 2) + 5544*(-x3 + 1)^5*((-2)*x2 - x3 + 1)^2 + 36036*(-x3 + 1)^2*((-2)*x2 - x3 + 1)^5 - 34034*(-x3 + 1)*((-2)*x2 - x3 + 1)^6 + 784*(x3 - 1)^7 - 20020*(x3 - 1)^4*((-2)*x2 - x3 + 1)^3 + 5005*(x3 - 1)^3*((-2)*x2 - x3 + 1)^4 + 9009*(x3 - 1)^2*((-2)*x2 - x3 + 1)^5 - 6006*(2*x3 - 2)*((-2)*x2 - x3 + 1)^6 - 4862*((-2)*x2 - x3 + 1)^7)/(x3 - 1) + 1/32*(154*x2*(x3 - 1)^7 - 924*(-x3 + 1)^6*((-2)*x2 - x3 + 1)^2 - 6006*(-x3 + 1)^2*((-2)*x2 - x3 + 1)^6 + 4862*(-x3 + 1)*((-2)*x2 - x3 + 1)^7 + 98*(x3 - 1)^8 + 5005*(x3 - 1)^4*((-2)*x2 - x3 + 1)^4 + 3003*(x3 - 1)^3*((-2)*x2 - x3 + 1)^5)/(x3 - 1) - 1/32*(2*x1 + x2 + x3 - 1)*(154*x2*(x3 - 1)^7 - 924*(-x3 + 1)^6*((-2)*x2 - x3 + 1)^2 - 6006*(-x3 + 1)^2*((-2)*x2 - x3 + 1)^6 + 4862*(-x3 + 1)*((-2)*x2 - x3 + 1)^7 + 98*(x3 - 1)^8 + 5005*(x3 - 1)^4*((-2)*x2 - x3 + 1)^4 + 3003*(x3 - 1)^3*((-2)*x2 - x3 + 1)^5)/(x3 - 1)^2;
  1/32*(-(x2 + x3 - 1)^2 + 3*(2*x1 + x2 + x3 - 1)^2)*((-10920)*x3 + 55692*(2*x3 - 1)^5 + 92820*(2*x3 - 1)^4 + 32760*(2*x3 - 1)^3 - 10920*(2*x3 - 1)^2 + 5304) + 1/32*(12*x1 + 4*x2 + 4*x3 - 4)*((-156)*x3 + 4641*(2*x3 - 1)^6 + 9282*(2*x3 - 1)^5 + 4095*(2*x3 - 1)^4 - 1820*(2*x3 - 1)^3 - 1365*(2*x3 - 1)^2 + 107);
  1/8*(-(x2 + x3 - 1)^2 + 3*(2*x1 + x2 + x3 - 1)^2)*(7*x2 + x3 - 1)*(1680*x3 + 10710*(2*x3 - 1)^4 + 19040*(2*x3 - 1)^3 + 9660*(2*x3 - 1)^2 - 1050) + 1/8*(-(x2 + x3 - 1)^2 + 3*(2*x1 + x2 + x3 - 1)^2)*((-210)*x3 + 1071*(2*x3 - 1)^5 + 2380*(2*x3 - 1)^4 + 1610*(2*x3 - 1)^3 + 210*(2*x3 - 1)^2 + 87) + 1/8*(7*x2 + x3 - 1)*(12*x1 + 4*x2 + 4*x3 - 4)*((-210)*x3 + 1071*(2*x3 - 1)^5 + 2380*(2*x3 - 1)^4 + 1610*(2*x3 - 1)^3 + 210*(2*x3 - 1)^2 + 87);
  ((x2 + x3 - 1)^2 - 3*(2*x1 + x2 + x3 - 1)^2)*(20*x2*(x3 - 1)^2 + 8*(x3 - 1)^3 - 9*(x3 - 1)*(2*x2 + x3 - 1)^2)*(9840*x3 + 6120*(2*x3 - 1)^3 + 10200*(2*x3 - 1)^2 - 4320)/(8*x3 - 8) + ((x2 + x3 - 1)^2 - 3*(2*x1 + x2 + x3 - 1)^2)*(20*x2*(2*x3 - 2) + 24*(x3 - 1)^2 - 9*(x3 - 1)*(4*x2 + 2*x3 - 2) - 9*(2*x2 + x3 - 1)^2)*(600*x3 + 765*(2*x3 - 1)^4 + 1700*(2*x3 - 1)^3 + 1230*(2*x3 - 1)^2 - 291)/(8*x3 - 8) + (20*x2*(x3 - 1)^2 + 8*(x3 - 1)^3 - 9*(x3 - 1)*(2*x2 + x3 - 1)^2)*((-12)*x1 - 4*x2 - 4*x3 + 4)*(600*x3 + 765*(2*x3 - 1)^4 + 1700*(2*x3 - 1)^3 + 1230*(2*x3 - 1)^2 - 291)/(8*x3 - 8) - 8*((x2 + x3 - 1)^2 - 3*(2*x1 + x2 + x3 - 1)^2)*(20*x2*(x3 - 1)^2 + 8*(x3 - 1)^3 - 9*(x3 - 1)*(2*x2 + x3 - 1)^2)*(600*x3 + 765*(2*x3 - 1)^4 + 1700*(2*x3 - 1)^3 + 1230*(2*x3 - 1)^2 - 291)/(8*x3 - 8)^2;
  1/16*(-(x2 + x3 - 1)^2 + 3*(2*x1 + x2 + x3 - 1)^2)*(1632*x3 + 612*(2*x3 - 1)^2 - 564)*(126*x2*(x3 - 1)^3 - 225*(-x3 + 1)^2*((-2)*x2 - x3 + 1)^2 + 165*(-x3 + 1)*((-2)*x2 - x3 + 1)^3 + 68*(x3 - 1)^4)/(x3 - 1) + 1/16*(-(x2 + x3 - 1)^2 + 3*(2*x1 + x2 + x3 - 1)^2)*(252*x3 + 102*(2*x3 - 1)^3 + 204*(2*x3 - 1)^2 - 103)*(378*x2*(x3 - 1)^2 - 225*(-x3 + 1)^2*(4*x2 + 2*x3 - 2) - 495*(-x3 + 1)*((-2)*x2 - x3 + 1)^2 + 272*(x3 - 1)^3 - 225*(2*x3 - 2)*((-2)*x2 - x3 + 1)^2 - 165*((-2)*x2 - x3 + 1)^3)/(x3 - 1) + 1/16*(12*x1 + 4*x2 + 4*x3 - 4)*(252*x3 + 102*(2*x3 - 1)^3 + 204*(2*x3 - 1)^2 - 103)*(126*x2*(x3 - 1)^3 - 225*(-x3 + 1)^2*((-2)*x2 - x3 + 1)^2 + 165*(-x3 + 1)*((-2)*x2 - x3 + 1)^3 + 68*(x3 - 1)^4)/(x3 - 1) - 1/16*(-(x2 + x3 - 1)^2 + 3*(2*x1 + x2 + x3 - 1)^2)*(252*x3 + 102*(2*x3 - 1)^3 + 204*(2*x3 - 1)^2 - 103)*(126*x2*(x3 - 1)^3 - 225*(-x3 + 1)^2*((-2)*x2 - x3 + 1)^2 + 165*(-x3 + 1)*((-2)*x2 - x3 + 1)^3 + 68*(x3 - 1)^4)/(x3 - 1)^2;
  1/128*(1224*x3 - 136)*(-(x2 + x3 - 1)^2 + 3*(2*x1 + x2 + x3 - 1)^2)*(200*x2*(x3 - 1)^3 + 71*(x3 - 1)^4 + 330*(x3 - 1)^2*(2*x2 + x3 - 1)^2 - 1100*(x3 - 1)*(2*x2 + x3 - 1)^3 + 715*(2*x2 + x3 - 1)^4) + 1/128*(-(x2 + x3 - 1)^2 + 3*(2*x1 + x2 + x3 - 1)^2)*(476*x3 + 153*(2*x3 - 1)^2 - 149)*(600*x2*(x3 - 1)^2 + 284*(x3 - 1)^3 + 330*(x3 - 1)^2*(4*x2 + 2*x3 - 2) - 3300*(x3 - 1)*(2*x2 + x3 - 1)^2 + 330*(2*x3 - 2)*(2*x2 + x3 - 1)^2 + 1760*(2*x2 + x3 - 1)^3) + 1/128*(476*x3 + 153*(2*x3 - 1)^2 - 149)*(12*x1 + 4*x2 + 4*x3 - 4)*(200*x2*(x3 - 1)^3 + 71*(x3 - 1)^4 + 330*(x3 - 1)^2*(2*x2 + x3 - 1)^2 - 1100*(x3 - 1)*(2*x2 + x3 - 1)^3 + 715*(2*x2 + x3 - 1)^4);
  (18*x3 - 1)*((x2 + x3 - 1)^2 - 3*(2*x1 + x2 + x3 - 1)^2)*(3850*x2*(x3 - 1)^4 + 2316*(x3 - 1)^5 - 990*(x3 - 1)^4*(4*x2 + 2*x3 - 2) - 8250*(x3 - 1)^3*(2*x2 + x3 - 1)^2 + 15730*(x3 - 1)^2*(2*x2 + x3 - 1)^3 - 15015*(x3 - 1)*(2*x2 + x3 - 1)^4 + 5005*(2*x3 - 2)*(2*x2 + x3 - 1)^4 - 3003*(2*x2 + x3 - 1)^5)/(64*x3 - 64) + (18*x3 - 1)*((-12)*x1 - 4*x2 - 4*x3 + 4)*(770*x2*(x3 - 1)^5 + 386*(x3 - 1)^6 - 990*(x3 - 1)^4*(2*x2 + x3 - 1)^2 - 1430*(x3 - 1)^3*(2*x2 + x3 - 1)^3 + 5005*(x3 - 1)^2*(2*x2 + x3 - 1)^4 - 3003*(x3 - 1)*(2*x2 + x3 - 1)^5)/(64*x3 - 64) - 64*(18*x3 - 1)*((x2 + x3 - 1)^2 - 3*(2*x1 + x2 + x3 - 1)^2)*(770*x2*(x3 - 1)^5 + 386*(x3 - 1)^6 - 990*(x3 - 1)^4*(2*x2 + x3 - 1)^2 - 1430*(x3 - 1)^3*(2*x2 + x3 - 1)^3 + 5005*(x3 - 1)^2*(2*x2 + x3 - 1)^4 - 3003*(x3 - 1)*(2*x2 + x3 - 1)^5)/(64*x3 - 64)^2 + 18*((x2 + x3 - 1)^2 - 3*(2*x1 + x2 + x3 - 1)^2)*(770*x2*(x3 - 1)^5 + 386*(x3 - 1)^6 - 990*(x3 - 1)^4*(2*x2 + x3 - 1)^2 - 1430*(x3 - 1)^3*(2*x2 + x3 - 1)^3 + 5005*(x3 - 1)^2*(2*x2 + x3 - 1)^4 - 3003*(x3 - 1)*(2*x2 + x3 - 1)^5)/(64*x3 - 64);
  1/32*((x2 + x3 - 1)^2 - 3*(2*x1 + x2 + x3 - 1)^2)*(480*x2*(x3 - 1)^4 + 138*(x3 - 1)^5 + 780*(x3 - 1)^4*(4*x2 + 2*x3 - 2) - 2340*(x3 - 1)^3*(2*x2 + x3 - 1)^2 - 10920*(x3 - 1)^2*(2*x2 + x3 - 1)^3 + 27300*(x3 - 1)*(2*x2 + x3 - 1)^4 - 1365*(2*x3 - 2)*(2*x2 + x3 - 1)^4 - 13104*(2*x2 + x3 - 1)^5) + 1/32*((-12)*x1 - 4*x2 - 4*x3 + 4)*(96*x2*(x3 - 1)^5 + 23*(x3 - 1)^6 + 780*(x3 - 1)^4*(2*x2 + x3 - 1)^2 - 1820*(x3 - 1)^3*(2*x2 + x3 - 1)^3 - 1365*(x3 - 1)^2*(2*x2 + x3 - 1)^4 + 5460*(x3 - 1)*(2*x2 + x3 - 1)^5 - 3094*(2*x2 + x3 - 1)^6);
  (-(6*x1*(x2 + x3 - 1)^3 + 3*(x2 + x3 - 1)^4 - 5*(x2 + x3 - 1)*(2*x1 + x2 + x3 - 1)^3))*(1680*x3 + 10710*(2*x3 - 1)^4 + 19040*(2*x3 - 1)^3 + 9660*(2*x3 - 1)^2 - 1050)/(8*x2 + 8*x3 - 8) - (18*x1*(x2 + x3 - 1)^2 + 12*(x2 + x3 - 1)^3 - 15*(x2 + x3 - 1)*(2*x1 + x2 + x3 - 1)^2 - 5*(2*x1 + x2 + x3 - 1)^3)*((-210)*x3 + 1071*(2*x3 - 1)^5 + 2380*(2*x3 - 1)^4 + 1610*(2*x3 - 1)^3 + 210*(2*x3 - 1)^2 + 87)/(8*x2 + 8*x3 - 8) + 8*(6*x1*(x2 + x3 - 1)^3 + 3*(x2 + x3 - 1)^4 - 5*(x2 + x3 - 1)*(2*x1 + x2 + x3 - 1)^3)*((-210)*x3 + 1071*(2*x3 - 1)^5 + 2380*(2*x3 - 1)^4 + 1610*(2*x3 - 1)^3 + 210*(2*x3 - 1)^2 + 87)/(8*x2 + 8*x3 - 8)^2;
  1/8*(9*x2 + x3 - 1)*(6*x1*(x2 + x3 - 1)^3 + 5*(-x2 - x3 + 1)*(2*x1 + x2 + x3 - 1)^3 + 3*(x2 + x3 - 1)^4)*(9840*x3 + 6120*(2*x3 - 1)^3 + 10200*(2*x3 - 1)^2 - 4320)/(-x2 - x3 + 1) + 1/8*(9*x2 + x3 - 1)*(18*x1*(x2 + x3 - 1)^2 + 15*(-x2 - x3 + 1)*(2*x1 + x2 + x3 - 1)^2 + 12*(x2 + x3 - 1)^3 - 5*(2*x1 + x2 + x3 - 1)^3)*(600*x3 + 765*(2*x3 - 1)^4 + 1700*(2*x3 - 1)^3 + 1230*(2*x3 - 1)^2 - 291)/(-x2 - x3 + 1) + 1/8*(6*x1*(x2 + x3 - 1)^3 + 5*(-x2 - x3 + 1)*(2*x1 + x2 + x3 - 1)^3 + 3*(x2 + x3 - 1)^4)*(600*x3 + 765*(2*x3 - 1)^4 + 1700*(2*x3 - 1)^3 + 1230*(2*x3 - 1)^2 - 291)/(-x2 - x3 + 1) + 1/8*(9*x2 + x3 - 1)*(6*x1*(x2 + x3 - 1)^3 + 5*(-x2 - x3 + 1)*(2*x1 + x2 + x3 - 1)^3 + 3*(x2 + x3 - 1)^4)*(600*x3 + 765*(2*x3 - 1)^4 + 1700*(2*x3 - 1)^3 + 1230*(2*x3 - 1)^2 - 291)/(-x2 - x3 + 1)^2;
  1/8*(1632*x3 + 612*(2*x3 - 1)^2 - 564)*(6*x1*(x2 + x3 - 1)^3 + 5*(-x2 - x3 + 1)*(2*x1 + x2 + x3 - 1)^3 + 3*(x2 + x3 - 1)^4)*(140*x2*(x3 - 1)^2 + 55*(-x3 + 1)*((-2)*x2 - x3 + 1)^2 + 51*(x3 - 1)^3)/((x3 - 1)*(x2 + x3 - 1)) + 1/8*(6*x1*(x2 + x3 - 1)^3 + 5*(-x2 - x3 + 1)*(2*x1 + x2 + x3 - 1)^3 + 3*(x2 + x3 - 1)^4)*(252*x3 + 102*(2*x3 - 1)^3 + 204*(2*x3 - 1)^2 - 103)*(140*x2*(2*x3 - 2) + 55*(-x3 + 1)*(4*x2 + 2*x3 - 2) + 153*(x3 - 1)^2 - 55*((-2)*x2 - x3 + 1)^2)/((x3 - 1)*(x2 + x3 - 1)) + 1/8*(140*x2*(x3 - 1)^2 + 55*(-x3 + 1)*((-2)*x2 - x3 + 1)^2 + 51*(x3 - 1)^3)*(252*x3 + 102*(2*x3 - 1)^3 + 204*(2*x3 - 1)^2 - 103)*(18*x1*(x2 + x3 - 1)^2 + 15*(-x2 - x3 + 1)*(2*x1 + x2 + x3 - 1)^2 + 12*(x2 + x3 - 1)^3 - 5*(2*x1 + x2 + x3 - 1)^3)/((x3 - 1)*(x2 + x3 - 1)) - 1/8*(6*x1*(x2 + x3 - 1)^3 + 5*(-x2 - x3 + 1)*(2*x1 + x2 + x3 - 1)^3 + 3*(x2 + x3 - 1)^4)*(140*x2*(x3 - 1)^2 + 55*(-x3 + 1)*((-2)*x2 - x3 + 1)^2 + 51*(x3 - 1)^3)*(252*x3 + 102*(2*x3 - 1)^3 + 204*(2*x3 - 1)^2 - 103)/((x3 - 1)*(x2 + x3 - 1)^2) - 1/8*(6*x1*(x2 + x3 - 1)^3 + 5*(-x2 - x3 + 1)*(2*x1 + x2 + x3 - 1)^3 + 3*(x2 + x3 - 1)^4)*(140*x2*(x3 - 1)^2 + 55*(-x3 + 1)*((-2)*x2 - x3 + 1)^2 + 51*(x3 - 1)^3)*(252*x3 + 102*(2*x3 - 1)^3 + 204*(2*x3 - 1)^2 - 103)/((x3 - 1)^2*(x2 + x3 - 1));
  (-(1224*x3 - 136))*(6*x1*(x2 + x3 - 1)^3 + 3*(x2 + x3 - 1)^4 - 5*(x2 + x3 - 1)*(2*x1 + x2 + x3 - 1)^3)*(198*x2*(x3 - 1)^2 + 92*(x3 - 1)^3 - 231*(x3 - 1)*(2*x2 + x3 - 1)^2 + 143*(2*x2 + x3 - 1)^3)/(32*x2 + 32*x3 - 32) - (476*x3 + 153*(2*x3 - 1)^2 - 149)*(6*x1*(x2 + x3 - 1)^3 + 3*(x2 + x3 - 1)^4 - 5*(x2 + x3 - 1)*(2*x1 + x2 + x3 - 1)^3)*(198*x2*(2*x3 - 2) + 276*(x3 - 1)^2 - 231*(x3 - 1)*(4*x2 + 2*x3 - 2) + 198*(2*x2 + x3 - 1)^2)/(32*x2 + 32*x3 - 32) - (476*x3 + 153*(2*x3 - 1)^2 - 149)*(18*x1*(x2 + x3 - 1)^2 + 12*(x2 + x3 - 1)^3 - 15*(x2 + x3 - 1)*(2*x1 + x2 + x3 - 1)^2 - 5*(2*x1 + x2 + x3 - 1)^3)*(198*x2*(x3 - 1)^2 + 92*(x3 - 1)^3 - 231*(x3 - 1)*(2*x2 + x3 - 1)^2 + 143*(2*x2 + x3 - 1)^3)/(32*x2 + 32*x3 - 32) + 32*(476*x3 + 153*(2*x3 - 1)^2 - 149)*(6*x1*(x2 + x3 - 1)^3 + 3*(x2 + x3 - 1)^4 - 5*(x2 + x3 - 1)*(2*x1 + x2 + x3 - 1)^3)*(198*x2*(x3 - 1)^2 + 92*(x3 - 1)^3 - 231*(x3 - 1)*(2*x2 + x3 - 1)^2 + 143*(2*x2 + x3 - 1)^3)/(32*x2 + 32*x3 - 32)^2;
  1/32*(18*x3 - 1)*(6*x1*(x2 + x3 - 1)^3 + 5*(-x2 - x3 + 1)*(2*x1 + x2 + x3 - 1)^3 + 3*(x2 + x3 - 1)^4)*((-504)*x2*(x3 - 1)^2 - 508*(x3 - 1)^3 + 1326*(x3 - 1)^2*(4*x2 + 2*x3 - 2) - 7644*(x3 - 1)*(2*x2 + x3 - 1)^2 + 1326*(2*x3 - 2)*(2*x2 + x3 - 1)^2 + 2912*(2*x2 + x3 - 1)^3)/(-x2 - x3 + 1) + 1/32*(18*x3 - 1)*(18*x1*(x2 + x3 - 1)^2 + 15*(-x2 - x3 + 1)*(2*x1 + x2 + x3 - 1)^2 + 12*(x2 + x3 - 1)^3 - 5*(2*x1 + x2 + x3 - 1)^3)*((-168)*x2*(x3 - 1)^3 - 127*(x3 - 1)^4 + 1326*(x3 - 1)^2*(2*x2 + x3 - 1)^2 - 2548*(x3 - 1)*(2*x2 + x3 - 1)^3 + 1365*(2*x2 + x3 - 1)^4)/(-x2 - x3 + 1) + 1/32*(18*x3 - 1)*(6*x1*(x2 + x3 - 1)^3 + 5*(-x2 - x3 + 1)*(2*x1 + x2 + x3 - 1)^3 + 3*(x2 + x3 - 1)^4)*((-168)*x2*(x3 - 1)^3 - 127*(x3 - 1)^4 + 1326*(x3 - 1)^2*(2*x2 + x3 - 1)^2 - 2548*(x3 - 1)*(2*x2 + x3 - 1)^3 + 1365*(2*x2 + x3 - 1)^4)/(-x2 - x3 + 1)^2 + 9/16*(6*x1*(x2 + x3 - 1)^3 + 5*(-x2 - x3 + 1)*(2*x1 + x2 + x3 - 1)^3 + 3*(x2 + x3 - 1)^4)*((-168)*x2*(x3 - 1)^3 - 127*(x3 - 1)^4 + 1326*(x3 - 1)^2*(2*x2 + x3 - 1)^2 - 2548*(x3 - 1)*(2*x2 + x3 - 1)^3 + 1365*(2*x2 + x3 - 1)^4)/(-x2 - x3 + 1);
  1/16*(6*x1*(x2 + x3 - 1)^3 + 5*(-x2 - x3 + 1)*(2*x1 + x2 + x3 - 1)^3 + 3*(x2 + x3 - 1)^4)*(1950*x2*(x3 - 1)^4 + 5460*(-x3 + 1)^3*(2*x2 + x3 - 1)^2 - 5460*(-x3 + 1)^2*(2*x2 + x3 - 1)^3 + 7735*(-x3 + 1)*(2*x2 + x3 - 1)^4 + 1044*(x3 - 1)^5 + 12740*(x3 - 1)^2*(2*x2 + x3 - 1)^3 + 3185*(2*x3 - 2)*(2*x2 + x3 - 1)^4 - 1547*(2*x2 + x3 - 1)^5)/((x3 - 1)*(x2 + x3 - 1)) + 1/16*(18*x1*(x2 + x3 - 1)^2 + 15*(-x2 - x3 + 1)*(2*x1 + x2 + x3 - 1)^2 + 12*(x2 + x3 - 1)^3 - 5*(2*x1 + x2 + x3 - 1)^3)*(390*x2*(x3 - 1)^5 + 1820*(-x3 + 1)^3*(2*x2 + x3 - 1)^3 + 1547*(-x3 + 1)*(2*x2 + x3 - 1)^5 + 174*(x3 - 1)^6 + 3185*(x3 - 1)^2*(2*x2 + x3 - 1)^4)/((x3 - 1)*(x2 + x3 - 1)) - 1/16*(6*x1*(x2 + x3 - 1)^3 + 5*(-x2 - x3 + 1)*(2*x1 + x2 + x3 - 1)^3 + 3*(x2 + x3 - 1)^4)*(390*x2*(x3 - 1)^5 + 1820*(-x3 + 1)^3*(2*x2 + x3 - 1)^3 + 1547*(-x3 + 1)*(2*x2 + x3 - 1)^5 + 174*(x3 - 1)^6 + 3185*(x3 - 1)^2*(2*x2 + x3 - 1)^4)/((x3 - 1)*(x2 + x3 - 1)^2) - 1/16*(6*x1*(x2 + x3 - 1)^3 + 5*(-x2 - x3 + 1)*(2*x1 + x2 + x3 - 1)^3 + 3*(x2 + x3 - 1)^4)*(390*x2*(x3 - 1)^5 + 1820*(-x3 + 1)^3*(2*x2 + x3 - 1)^3 + 1547*(-x3 + 1)*(2*x2 + x3 - 1)^5 + 174*(x3 - 1)^6 + 3185*(x3 - 1)^2*(2*x2 + x3 - 1)^4)/((x3 - 1)^2*(x2 + x3 - 1));
  1/32*(3*(x2 + x3 - 1)^4 - 30*(x2 + x3 - 1)^2*(2*x1 + x2 + x3 - 1)^2 + 35*(2*x1 + x2 + x3 - 1)^4)*(9840*x3 + 6120*(2*x3 - 1)^3 + 10200*(2*x3 - 1)^2 - 4320) + 1/32*(12*(x2 + x3 - 1)^3 - 30*(x2 + x3 - 1)^2*(4*x1 + 2*x2 + 2*x3 - 2) - 30*(2*x2 + 2*x3 - 2)*(2*x1 + x2 + x3 - 1)^2 + 140*(2*x1 + x2 + x3 - 1)^3)*(600*x3 + 765*(2*x3 - 1)^4 + 1700*(2*x3 - 1)^3 + 1230*(2*x3 - 1)^2 - 291);
  1/8*(11*x2 + x3 - 1)*(1632*x3 + 612*(2*x3 - 1)^2 - 564)*(3*(x2 + x3 - 1)^4 - 30*(x2 + x3 - 1)^2*(2*x1 + x2 + x3 - 1)^2 + 35*(2*x1 + x2 + x3 - 1)^4) + 1/8*(11*x2 + x3 - 1)*(252*x3 + 102*(2*x3 - 1)^3 + 204*(2*x3 - 1)^2 - 103)*(12*(x2 + x3 - 1)^3 - 30*(x2 + x3 - 1)^2*(4*x1 + 2*x2 + 2*x3 - 2) - 30*(2*x2 + 2*x3 - 2)*(2*x1 + x2 + x3 - 1)^2 + 140*(2*x1 + x2 + x3 - 1)^3) + 1/8*(3*(x2 + x3 - 1)^4 - 30*(x2 + x3 - 1)^2*(2*x1 + x2 + x3 - 1)^2 + 35*(2*x1 + x2 + x3 - 1)^4)*(252*x3 + 102*(2*x3 - 1)^3 + 204*(2*x3 - 1)^2 - 103);
  (-(1224*x3 - 136))*(108*x2*(x3 - 1)^2 + 37*(x3 - 1)^3 - 39*(x3 - 1)*(2*x2 + x3 - 1)^2)*(3*(x2 + x3 - 1)^4 - 30*(x2 + x3 - 1)^2*(2*x1 + x2 + x3 - 1)^2 + 35*(2*x1 + x2 + x3 - 1)^4)/(64*x3 - 64) - (476*x3 + 153*(2*x3 - 1)^2 - 149)*(108*x2*(x3 - 1)^2 + 37*(x3 - 1)^3 - 39*(x3 - 1)*(2*x2 + x3 - 1)^2)*(12*(x2 + x3 - 1)^3 - 30*(x2 + x3 - 1)^2*(4*x1 + 2*x2 + 2*x3 - 2) - 30*(2*x2 + 2*x3 - 2)*(2*x1 + x2 + x3 - 1)^2 + 140*(2*x1 + x2 + x3 - 1)^3)/(64*x3 - 64) - (476*x3 + 153*(2*x3 - 1)^2 - 149)*(3*(x2 + x3 - 1)^4 - 30*(x2 + x3 - 1)^2*(2*x1 + x2 + x3 - 1)^2 + 35*(2*x1 + x2 + x3 - 1)^4)*(108*x2*(2*x3 - 2) + 111*(x3 - 1)^2 - 39*(x3 - 1)*(4*x2 + 2*x3 - 2) - 39*(2*x2 + x3 - 1)^2)/(64*x3 - 64) + 64*(476*x3 + 153*(2*x3 - 1)^2 - 149)*(108*x2*(x3 - 1)^2 + 37*(x3 - 1)^3 - 39*(x3 - 1)*(2*x2 + x3 - 1)^2)*(3*(x2 + x3 - 1)^4 - 30*(x2 + x3 - 1)^2*(2*x1 + x2 + x3 - 1)^2 + 35*(2*x1 + x2 + x3 - 1)^4)/(64*x3 - 64)^2;
  1/64*(18*x3 - 1)*(3*(x2 + x3 - 1)^4 - 30*(x2 + x3 - 1)^2*(2*x1 + x2 + x3 - 1)^2 + 35*(2*x1 + x2 + x3 - 1)^4)*(2574*x2*(x3 - 1)^2 - 819*(-x3 + 1)^2*(4*x2 + 2*x3 - 2) - 1365*(-x3 + 1)*((-2)*x2 - x3 + 1)^2 + 1488*(x3 - 1)^3 - 819*(2*x3 - 2)*((-2)*x2 - x3 + 1)^2 - 455*((-2)*x2 - x3 + 1)^3)/(x3 - 1) + 1/64*(18*x3 - 1)*(858*x2*(x3 - 1)^3 - 819*(-x3 + 1)^2*((-2)*x2 - x3 + 1)^2 + 455*(-x3 + 1)*((-2)*x2 - x3 + 1)^3 + 372*(x3 - 1)^4)*(12*(x2 + x3 - 1)^3 - 30*(x2 + x3 - 1)^2*(4*x1 + 2*x2 + 2*x3 - 2) - 30*(2*x2 + 2*x3 - 2)*(2*x1 + x2 + x3 - 1)^2 + 140*(2*x1 + x2 + x3 - 1)^3)/(x3 - 1) + 9/32*(3*(x2 + x3 - 1)^4 - 30*(x2 + x3 - 1)^2*(2*x1 + x2 + x3 - 1)^2 + 35*(2*x1 + x2 + x3 - 1)^4)*(858*x2*(x3 - 1)^3 - 819*(-x3 + 1)^2*((-2)*x2 - x3 + 1)^2 + 455*(-x3 + 1)*((-2)*x2 - x3 + 1)^3 + 372*(x3 - 1)^4)/(x3 - 1) - 1/64*(18*x3 - 1)*(3*(x2 + x3 - 1)^4 - 30*(x2 + x3 - 1)^2*(2*x1 + x2 + x3 - 1)^2 + 35*(2*x1 + x2 + x3 - 1)^4)*(858*x2*(x3 - 1)^3 - 819*(-x3 + 1)^2*((-2)*x2 - x3 + 1)^2 + 455*(-x3 + 1)*((-2)*x2 - x3 + 1)^3 + 372*(x3 - 1)^4)/(x3 - 1)^2;
  1/32*(3*(x2 + x3 - 1)^4 - 30*(x2 + x3 - 1)^2*(2*x1 + x2 + x3 - 1)^2 + 35*(2*x1 + x2 + x3 - 1)^4)*((-1008)*x2*(x3 - 1)^2 - 684*(x3 - 1)^3 + 840*(x3 - 1)^2*(4*x2 + 2*x3 - 2) - 3780*(x3 - 1)*(2*x2 + x3 - 1)^2 + 840*(2*x3 - 2)*(2*x2 + x3 - 1)^2 + 1120*(2*x2 + x3 - 1)^3) + 1/32*(12*(x2 + x3 - 1)^3 - 30*(x2 + x3 - 1)^2*(4*x1 + 2*x2 + 2*x3 - 2) - 30*(2*x2 + 2*x3 - 2)*(2*x1 + x2 + x3 - 1)^2 + 140*(2*x1 + x2 + x3 - 1)^3)*((-336)*x2*(x3 - 1)^3 - 171*(x3 - 1)^4 + 840*(x3 - 1)^2*(2*x2 + x3 - 1)^2 - 1260*(x3 - 1)*(2*x2 + x3 - 1)^3 + 595*(2*x2 + x3 - 1)^4);
  1/8*(1632*x3 + 612*(2*x3 - 1)^2 - 564)*(30*x1*(x2 + x3 - 1)^5 + 63*(-x2 - x3 + 1)*((-2)*x1 - x2 - x3 + 1)^5 + 15*(x2 + x3 - 1)^6 + 70*(x2 + x3 - 1)^3*((-2)*x1 - x2 - x3 + 1)^3)/(x2 + x3 - 1) + 1/8*(252*x3 + 102*(2*x3 - 1)^3 + 204*(2*x3 - 1)^2 - 103)*(150*x1*(x2 + x3 - 1)^4 - 315*(-x2 - x3 + 1)*((-2)*x1 - x2 - x3 + 1)^4 + 90*(x2 + x3 - 1)^5 - 210*(x2 + x3 - 1)^3*((-2)*x1 - x2 - x3 + 1)^2 + 210*(x2 + x3 - 1)^2*((-2)*x1 - x2 - x3 + 1)^3 - 63*((-2)*x1 - x2 - x3 + 1)^5)/(x2 + x3 - 1) - 1/8*(252*x3 + 102*(2*x3 - 1)^3 + 204*(2*x3 - 1)^2 - 103)*(30*x1*(x2 + x3 - 1)^5 + 63*(-x2 - x3 + 1)*((-2)*x1 - x2 - x3 + 1)^5 + 15*(x2 + x3 - 1)^6 + 70*(x2 + x3 - 1)^3*((-2)*x1 - x2 - x3 + 1)^3)/(x2 + x3 - 1)^2;
  1/32*(1224*x3 - 136)*(13*x2 + x3 - 1)*(30*x1*(x2 + x3 - 1)^5 + 63*(-x2 - x3 + 1)*((-2)*x1 - x2 - x3 + 1)^5 + 15*(x2 + x3 - 1)^6 + 70*(x2 + x3 - 1)^3*((-2)*x1 - x2 - x3 + 1)^3)/(x2 + x3 - 1) + 1/32*(13*x2 + x3 - 1)*(476*x3 + 153*(2*x3 - 1)^2 - 149)*(150*x1*(x2 + x3 - 1)^4 - 315*(-x2 - x3 + 1)*((-2)*x1 - x2 - x3 + 1)^4 + 90*(x2 + x3 - 1)^5 - 210*(x2 + x3 - 1)^3*((-2)*x1 - x2 - x3 + 1)^2 + 210*(x2 + x3 - 1)^2*((-2)*x1 - x2 - x3 + 1)^3 - 63*((-2)*x1 - x2 - x3 + 1)^5)/(x2 + x3 - 1) + 1/32*(476*x3 + 153*(2*x3 - 1)^2 - 149)*(30*x1*(x2 + x3 - 1)^5 + 63*(-x2 - x3 + 1)*((-2)*x1 - x2 - x3 + 1)^5 + 15*(x2 + x3 - 1)^6 + 70*(x2 + x3 - 1)^3*((-2)*x1 - x2 - x3 + 1)^3)/(x2 + x3 - 1) - 1/32*(13*x2 + x3 - 1)*(476*x3 + 153*(2*x3 - 1)^2 - 149)*(30*x1*(x2 + x3 - 1)^5 + 63*(-x2 - x3 + 1)*((-2)*x1 - x2 - x3 + 1)^5 + 15*(x2 + x3 - 1)^6 + 70*(x2 + x3 - 1)^3*((-2)*x1 - x2 - x3 + 1)^3)/(x2 + x3 - 1)^2;
  (-1)/32*(18*x3 - 1)*(308*x2*(x3 - 1)^2 + 101*(x3 - 1)^3 - 105*(x3 - 1)*(2*x2 + x3 - 1)^2)*(150*x1*(x2 + x3 - 1)^4 + 90*(x2 + x3 - 1)^5 - 210*(x2 + x3 - 1)^3*(2*x1 + x2 + x3 - 1)^2 - 210*(x2 + x3 - 1)^2*(2*x1 + x2 + x3 - 1)^3 + 315*(x2 + x3 - 1)*(2*x1 + x2 + x3 - 1)^4 + 63*(2*x1 + x2 + x3 - 1)^5)/((x3 - 1)*(x2 + x3 - 1)) - 1/32*(18*x3 - 1)*(30*x1*(x2 + x3 - 1)^5 + 15*(x2 + x3 - 1)^6 - 70*(x2 + x3 - 1)^3*(2*x1 + x2 + x3 - 1)^3 + 63*(x2 + x3 - 1)*(2*x1 + x2 + x3 - 1)^5)*(308*x2*(2*x3 - 2) + 303*(x3 - 1)^2 - 105*(x3 - 1)*(4*x2 + 2*x3 - 2) - 105*(2*x2 + x3 - 1)^2)/((x3 - 1)*(x2 + x3 - 1)) + 1/32*(18*x3 - 1)*(308*x2*(x3 - 1)^2 + 101*(x3 - 1)^3 - 105*(x3 - 1)*(2*x2 + x3 - 1)^2)*(30*x1*(x2 + x3 - 1)^5 + 15*(x2 + x3 - 1)^6 - 70*(x2 + x3 - 1)^3*(2*x1 + x2 + x3 - 1)^3 + 63*(x2 + x3 - 1)*(2*x1 + x2 + x3 - 1)^5)/((x3 - 1)*(x2 + x3 - 1)^2) - 9/16*(308*x2*(x3 - 1)^2 + 101*(x3 - 1)^3 - 105*(x3 - 1)*(2*x2 + x3 - 1)^2)*(30*x1*(x2 + x3 - 1)^5 + 15*(x2 + x3 - 1)^6 - 70*(x2 + x3 - 1)^3*(2*x1 + x2 + x3 - 1)^3 + 63*(x2 + x3 - 1)*(2*x1 + x2 + x3 - 1)^5)/((x3 - 1)*(x2 + x3 - 1)) + 1/32*(18*x3 - 1)*(308*x2*(x3 - 1)^2 + 101*(x3 - 1)^3 - 105*(x3 - 1)*(2*x2 + x3 - 1)^2)*(30*x1*(x2 + x3 - 1)^5 + 15*(x2 + x3 - 1)^6 - 70*(x2 + x3 - 1)^3*(2*x1 + x2 + x3 - 1)^3 + 63*(x2 + x3 - 1)*(2*x1 + x2 + x3 - 1)^5)/((x3 - 1)^2*(x2 + x3 - 1));
  1/8*(30*x1*(x2 + x3 - 1)^5 + 63*(-x2 - x3 + 1)*((-2)*x1 - x2 - x3 + 1)^5 + 15*(x2 + x3 - 1)^6 + 70*(x2 + x3 - 1)^3*((-2)*x1 - x2 - x3 + 1)^3)*(195*x2*(2*x3 - 2) + 243*(x3 - 1)^2 - 165*(x3 - 1)*(4*x2 + 2*x3 - 2) + 90*((-2)*x2 - x3 + 1)^2)/(x2 + x3 - 1) + 1/8*(195*x2*(x3 - 1)^2 + 81*(x3 - 1)^3 - 165*(x3 - 1)*((-2)*x2 - x3 + 1)^2 - 85*((-2)*x2 - x3 + 1)^3)*(150*x1*(x2 + x3 - 1)^4 - 315*(-x2 - x3 + 1)*((-2)*x1 - x2 - x3 + 1)^4 + 90*(x2 + x3 - 1)^5 - 210*(x2 + x3 - 1)^3*((-2)*x1 - x2 - x3 + 1)^2 + 210*(x2 + x3 - 1)^2*((-2)*x1 - x2 - x3 + 1)^3 - 63*((-2)*x1 - x2 - x3 + 1)^5)/(x2 + x3 - 1) - 1/8*(30*x1*(x2 + x3 - 1)^5 + 63*(-x2 - x3 + 1)*((-2)*x1 - x2 - x3 + 1)^5 + 15*(x2 + x3 - 1)^6 + 70*(x2 + x3 - 1)^3*((-2)*x1 - x2 - x3 + 1)^3)*(195*x2*(x3 - 1)^2 + 81*(x3 - 1)^3 - 165*(x3 - 1)*((-2)*x2 - x3 + 1)^2 - 85*((-2)*x2 - x3 + 1)^3)/(x2 + x3 - 1)^2;
  1/64*(1224*x3 - 136)*((-5)*(x2 + x3 - 1)^6 + 105*(x2 + x3 - 1)^4*(2*x1 + x2 + x3 - 1)^2 - 315*(x2 + x3 - 1)^2*(2*x1 + x2 + x3 - 1)^4 + 231*(2*x1 + x2 + x3 - 1)^6) + 1/64*(476*x3 + 153*(2*x3 - 1)^2 - 149)*((-30)*(x2 + x3 - 1)^5 + 105*(x2 + x3 - 1)^4*(4*x1 + 2*x2 + 2*x3 - 2) + 420*(x2 + x3 - 1)^3*(2*x1 + x2 + x3 - 1)^2 - 1260*(x2 + x3 - 1)^2*(2*x1 + x2 + x3 - 1)^3 - 315*(2*x2 + 2*x3 - 2)*(2*x1 + x2 + x3 - 1)^4 + 1386*(2*x1 + x2 + x3 - 1)^5);
  1/16*(18*x3 - 1)*(15*x2 + x3 - 1)*((-30)*(x2 + x3 - 1)^5 + 105*(x2 + x3 - 1)^4*(4*x1 + 2*x2 + 2*x3 - 2) + 420*(x2 + x3 - 1)^3*(2*x1 + x2 + x3 - 1)^2 - 1260*(x2 + x3 - 1)^2*(2*x1 + x2 + x3 - 1)^3 - 315*(2*x2 + 2*x3 - 2)*(2*x1 + x2 + x3 - 1)^4 + 1386*(2*x1 + x2 + x3 - 1)^5) + 1/16*(18*x3 - 1)*((-5)*(x2 + x3 - 1)^6 + 105*(x2 + x3 - 1)^4*(2*x1 + x2 + x3 - 1)^2 - 315*(x2 + x3 - 1)^2*(2*x1 + x2 + x3 - 1)^4 + 231*(2*x1 + x2 + x3 - 1)^6) + 9/8*(15*x2 + x3 - 1)*((-5)*(x2 + x3 - 1)^6 + 105*(x2 + x3 - 1)^4*(2*x1 + x2 + x3 - 1)^2 - 315*(x2 + x3 - 1)^2*(2*x1 + x2 + x3 - 1)^4 + 231*(2*x1 + x2 + x3 - 1)^6);
  (104*x2*(x3 - 1)^2 + 33*(x3 - 1)^3 - 34*(x3 - 1)*(2*x2 + x3 - 1)^2)*(30*(x2 + x3 - 1)^5 - 105*(x2 + x3 - 1)^4*(4*x1 + 2*x2 + 2*x3 - 2) - 420*(x2 + x3 - 1)^3*(2*x1 + x2 + x3 - 1)^2 + 1260*(x2 + x3 - 1)^2*(2*x1 + x2 + x3 - 1)^3 + 315*(2*x2 + 2*x3 - 2)*(2*x1 + x2 + x3 - 1)^4 - 1386*(2*x1 + x2 + x3 - 1)^5)/(16*x3 - 16) + (104*x2*(2*x3 - 2) + 99*(x3 - 1)^2 - 34*(x3 - 1)*(4*x2 + 2*x3 - 2) - 34*(2*x2 + x3 - 1)^2)*(5*(x2 + x3 - 1)^6 - 105*(x2 + x3 - 1)^4*(2*x1 + x2 + x3 - 1)^2 + 315*(x2 + x3 - 1)^2*(2*x1 + x2 + x3 - 1)^4 - 231*(2*x1 + x2 + x3 - 1)^6)/(16*x3 - 16) - 16*(104*x2*(x3 - 1)^2 + 33*(x3 - 1)^3 - 34*(x3 - 1)*(2*x2 + x3 - 1)^2)*(5*(x2 + x3 - 1)^6 - 105*(x2 + x3 - 1)^4*(2*x1 + x2 + x3 - 1)^2 + 315*(x2 + x3 - 1)^2*(2*x1 + x2 + x3 - 1)^4 - 231*(2*x1 + x2 + x3 - 1)^6)/(16*x3 - 16)^2;
  (-(18*x3 - 1))*(490*x1*(x2 + x3 - 1)^6 + 280*(x2 + x3 - 1)^7 - 945*(x2 + x3 - 1)^5*(2*x1 + x2 + x3 - 1)^2 - 1575*(x2 + x3 - 1)^4*(2*x1 + x2 + x3 - 1)^3 + 3465*(x2 + x3 - 1)^3*(2*x1 + x2 + x3 - 1)^4 + 2079*(x2 + x3 - 1)^2*(2*x1 + x2 + x3 - 1)^5 - 3003*(x2 + x3 - 1)*(2*x1 + x2 + x3 - 1)^6 - 429*(2*x1 + x2 + x3 - 1)^7)/(16*x2 + 16*x3 - 16) + 16*(18*x3 - 1)*(70*x1*(x2 + x3 - 1)^7 + 35*(x2 + x3 - 1)^8 - 315*(x2 + x3 - 1)^5*(2*x1 + x2 + x3 - 1)^3 + 693*(x2 + x3 - 1)^3*(2*x1 + x2 + x3 - 1)^5 - 429*(x2 + x3 - 1)*(2*x1 + x2 + x3 - 1)^7)/(16*x2 + 16*x3 - 16)^2 - 18*(70*x1*(x2 + x3 - 1)^7 + 35*(x2 + x3 - 1)^8 - 315*(x2 + x3 - 1)^5*(2*x1 + x2 + x3 - 1)^3 + 693*(x2 + x3 - 1)^3*(2*x1 + x2 + x3 - 1)^5 - 429*(x2 + x3 - 1)*(2*x1 + x2 + x3 - 1)^7)/(16*x2 + 16*x3 - 16);
  (-(17*x2 + x3 - 1))*(490*x1*(x2 + x3 - 1)^6 + 280*(x2 + x3 - 1)^7 - 945*(x2 + x3 - 1)^5*(2*x1 + x2 + x3 - 1)^2 - 1575*(x2 + x3 - 1)^4*(2*x1 + x2 + x3 - 1)^3 + 3465*(x2 + x3 - 1)^3*(2*x1 + x2 + x3 - 1)^4 + 2079*(x2 + x3 - 1)^2*(2*x1 + x2 + x3 - 1)^5 - 3003*(x2 + x3 - 1)*(2*x1 + x2 + x3 - 1)^6 - 429*(2*x1 + x2 + x3 - 1)^7)/(16*x2 + 16*x3 - 16) - (70*x1*(x2 + x3 - 1)^7 + 35*(x2 + x3 - 1)^8 - 315*(x2 + x3 - 1)^5*(2*x1 + x2 + x3 - 1)^3 + 693*(x2 + x3 - 1)^3*(2*x1 + x2 + x3 - 1)^5 - 429*(x2 + x3 - 1)*(2*x1 + x2 + x3 - 1)^7)/(16*x2 + 16*x3 - 16) + 16*(17*x2 + x3 - 1)*(70*x1*(x2 + x3 - 1)^7 + 35*(x2 + x3 - 1)^8 - 315*(x2 + x3 - 1)^5*(2*x1 + x2 + x3 - 1)^3 + 693*(x2 + x3 - 1)^3*(2*x1 + x2 + x3 - 1)^5 - 429*(x2 + x3 - 1)*(2*x1 + x2 + x3 - 1)^7)/(16*x2 + 16*x3 - 16)^2;
  35/16*(x2 + x3 - 1)^7 - 315/32*(x2 + x3 - 1)^6*(4*x1 + 2*x2 + 2*x3 - 2) - 945/16*(x2 + x3 - 1)^5*(2*x1 + x2 + x3 - 1)^2 + 3465/16*(x2 + x3 - 1)^4*(2*x1 + x2 + x3 - 1)^3 + 3465/16*(x2 + x3 - 1)^3*(2*x1 + x2 + x3 - 1)^4 - 9009/16*(x2 + x3 - 1)^2*(2*x1 + x2 + x3 - 1)^5 - 3003/32*(2*x2 + 2*x3 - 2)*(2*x1 + x2 + x3 - 1)^6 + 6435/16*(2*x1 + x2 + x3 - 1)^7;
  1511640*x3^8 - 5441904*x3^7 + 8019648*x3^6 - 6237504*x3^5 + 2751840*x3^4 - 687960*x3^3 + 91728*x3^2 - 5616*x3 + 108;
  (-91)/8*x3 + 62985/128*(2*x3 - 1)^8 + 12597/16*(2*x3 - 1)^7 - 4641/32*(2*x3 - 1)^6 - 10829/16*(2*x3 - 1)^5 - 8645/64*(2*x3 - 1)^4 + 2275/16*(2*x3 - 1)^3 + 1183/32*(2*x3 - 1)^2 + 1/128*(3*x2 + x3 - 1)*(37856*x3 + 1007760*(2*x3 - 1)^7 + 1410864*(2*x3 - 1)^6 - 222768*(2*x3 - 1)^5 - 866320*(2*x3 - 1)^4 - 138320*(2*x3 - 1)^3 + 109200*(2*x3 - 1)^2 - 20384) + 609/128;
  (-(4*x2*(x3 - 1)^2 + 3*(x3 - 1)^3 - 5*(x3 - 1)*(2*x2 + x3 - 1)^2))*((-840)*x3 + 135660*(2*x3 - 1)^6 + 244188*(2*x3 - 1)^5 + 85680*(2*x3 - 1)^4 - 52360*(2*x3 - 1)^3 - 28980*(2*x3 - 1)^2 + 1036)/(32*x3 - 32) - (4*x2*(2*x3 - 2) + 9*(x3 - 1)^2 - 5*(x3 - 1)*(4*x2 + 2*x3 - 2) - 5*(2*x2 + x3 - 1)^2)*(616*x3 + 9690*(2*x3 - 1)^7 + 20349*(2*x3 - 1)^6 + 8568*(2*x3 - 1)^5 - 6545*(2*x3 - 1)^4 - 4830*(2*x3 - 1)^3 - 105*(2*x3 - 1)^2 - 287)/(32*x3 - 32) + 32*(4*x2*(x3 - 1)^2 + 3*(x3 - 1)^3 - 5*(x3 - 1)*(2*x2 + x3 - 1)^2)*(616*x3 + 9690*(2*x3 - 1)^7 + 20349*(2*x3 - 1)^6 + 8568*(2*x3 - 1)^5 - 6545*(2*x3 - 1)^4 - 4830*(2*x3 - 1)^3 - 105*(2*x3 - 1)^2 - 287)/(32*x3 - 32)^2;
  (-(30*x2*(x3 - 1)^3 + 12*(x3 - 1)^4 + 15*(x3 - 1)^2*(2*x2 + x3 - 1)^2 - 35*(x3 - 1)*(2*x2 + x3 - 1)^3))*((-9960)*x3 + 58140*(2*x3 - 1)^5 + 116280*(2*x3 - 1)^4 + 67320*(2*x3 - 1)^3 + 4080*(2*x3 - 1)^2 + 4380)/(64*x3 - 64) - (90*x2*(x3 - 1)^2 + 48*(x3 - 1)^3 + 15*(x3 - 1)^2*(4*x2 + 2*x3 - 2) - 105*(x3 - 1)*(2*x2 + x3 - 1)^2 + 15*(2*x3 - 2)*(2*x2 + x3 - 1)^2 - 35*(2*x2 + x3 - 1)^3)*((-600)*x3 + 4845*(2*x3 - 1)^6 + 11628*(2*x3 - 1)^5 + 8415*(2*x3 - 1)^4 + 680*(2*x3 - 1)^3 - 1245*(2*x3 - 1)^2 + 301)/(64*x3 - 64) + 64*(30*x2*(x3 - 1)^3 + 12*(x3 - 1)^4 + 15*(x3 - 1)^2*(2*x2 + x3 - 1)^2 - 35*(x3 - 1)*(2*x2 + x3 - 1)^3)*((-600)*x3 + 4845*(2*x3 - 1)^6 + 11628*(2*x3 - 1)^5 + 8415*(2*x3 - 1)^4 + 680*(2*x3 - 1)^3 - 1245*(2*x3 - 1)^2 + 301)/(64*x3 - 64)^2;
  1/32*(9520*x3 + 19380*(2*x3 - 1)^4 + 38760*(2*x3 - 1)^3 + 24480*(2*x3 - 1)^2 - 4780)*(24*x2*(x3 - 1)^3 + 15*(x3 - 1)^4 - 42*(x3 - 1)^2*(2*x2 + x3 - 1)^2 - 28*(x3 - 1)*(2*x2 + x3 - 1)^3 + 63*(2*x2 + x3 - 1)^4) + 1/32*((-20)*x3 + 1938*(2*x3 - 1)^5 + 4845*(2*x3 - 1)^4 + 4080*(2*x3 - 1)^3 + 1190*(2*x3 - 1)^2 - 21)*(72*x2*(x3 - 1)^2 + 60*(x3 - 1)^3 - 42*(x3 - 1)^2*(4*x2 + 2*x3 - 2) - 84*(x3 - 1)*(2*x2 + x3 - 1)^2 - 42*(2*x3 - 2)*(2*x2 + x3 - 1)^2 + 224*(2*x2 + x3 - 1)^3);
  1/256*(75888*x3 + 38760*(2*x3 - 1)^3 + 69768*(2*x3 - 1)^2 - 32096)*(70*x2*(x3 - 1)^5 - 105*(-x3 + 1)^2*((-2)*x2 - x3 + 1)^4 + 231*(-x3 + 1)*((-2)*x2 - x3 + 1)^5 + 30*(x3 - 1)^6 + 70*(x3 - 1)^4*((-2)*x2 - x3 + 1)^2 + 210*(x3 - 1)^3*((-2)*x2 - x3 + 1)^3)/(x3 - 1) + 1/256*(5848*x3 + 4845*(2*x3 - 1)^4 + 11628*(2*x3 - 1)^3 + 9486*(2*x3 - 1)^2 - 2687)*(350*x2*(x3 - 1)^4 + 420*(-x3 + 1)^2*((-2)*x2 - x3 + 1)^3 - 1155*(-x3 + 1)*((-2)*x2 - x3 + 1)^4 + 180*(x3 - 1)^5 + 70*(x3 - 1)^4*(4*x2 + 2*x3 - 2) - 350*(x3 - 1)^3*((-2)*x2 - x3 + 1)^2 + 630*(x3 - 1)^2*((-2)*x2 - x3 + 1)^3 - 105*(2*x3 - 2)*((-2)*x2 - x3 + 1)^4 - 231*((-2)*x2 - x3 + 1)^5)/(x3 - 1) - 1/256*(5848*x3 + 4845*(2*x3 - 1)^4 + 11628*(2*x3 - 1)^3 + 9486*(2*x3 - 1)^2 - 2687)*(70*x2*(x3 - 1)^5 - 105*(-x3 + 1)^2*((-2)*x2 - x3 + 1)^4 + 231*(-x3 + 1)*((-2)*x2 - x3 + 1)^5 + 30*(x3 - 1)^6 + 70*(x3 - 1)^4*((-2)*x2 - x3 + 1)^2 + 210*(x3 - 1)^3*((-2)*x2 - x3 + 1)^3)/(x3 - 1)^2;
  (-(9576*x3 + 3420*(2*x3 - 1)^2 - 3204))*(60*x2*(x3 - 1)^6 + 35*(x3 - 1)^7 - 135*(x3 - 1)^5*(2*x2 + x3 - 1)^2 - 180*(x3 - 1)^4*(2*x2 + x3 - 1)^3 + 495*(x3 - 1)^3*(2*x2 + x3 - 1)^4 + 198*(x3 - 1)^2*(2*x2 + x3 - 1)^5 - 429*(x3 - 1)*(2*x2 + x3 - 1)^6)/(64*x3 - 64) - (1584*x3 + 570*(2*x3 - 1)^3 + 1197*(2*x3 - 1)^2 - 631)*(360*x2*(x3 - 1)^5 + 245*(x3 - 1)^6 - 135*(x3 - 1)^5*(4*x2 + 2*x3 - 2) - 1215*(x3 - 1)^4*(2*x2 + x3 - 1)^2 + 1260*(x3 - 1)^3*(2*x2 + x3 - 1)^3 + 2475*(x3 - 1)^2*(2*x2 + x3 - 1)^4 - 2574*(x3 - 1)*(2*x2 + x3 - 1)^5 + 198*(2*x3 - 2)*(2*x2 + x3 - 1)^5 - 429*(2*x2 + x3 - 1)^6)/(64*x3 - 64) + 64*(1584*x3 + 570*(2*x3 - 1)^3 + 1197*(2*x3 - 1)^2 - 631)*(60*x2*(x3 - 1)^6 + 35*(x3 - 1)^7 - 135*(x3 - 1)^5*(2*x2 + x3 - 1)^2 - 180*(x3 - 1)^4*(2*x2 + x3 - 1)^3 + 495*(x3 - 1)^3*(2*x2 + x3 - 1)^4 + 198*(x3 - 1)^2*(2*x2 + x3 - 1)^5 - 429*(x3 - 1)*(2*x2 + x3 - 1)^6)/(64*x3 - 64)^2;
  (-(760*x3 - 76))*(630*x2*(x3 - 1)^7 + 280*(x3 - 1)^8 + 945*(x3 - 1)^6*(2*x2 + x3 - 1)^2 - 3465*(x3 - 1)^5*(2*x2 + x3 - 1)^3 - 3465*(x3 - 1)^4*(2*x2 + x3 - 1)^4 + 9009*(x3 - 1)^3*(2*x2 + x3 - 1)^5 + 3003*(x3 - 1)^2*(2*x2 + x3 - 1)^6 - 6435*(x3 - 1)*(2*x2 + x3 - 1)^7)/(256*x3 - 256) - (304*x3 + 95*(2*x3 - 1)^2 - 93)*(4410*x2*(x3 - 1)^6 + 2240*(x3 - 1)^7 + 945*(x3 - 1)^6*(4*x2 + 2*x3 - 2) - 4725*(x3 - 1)^5*(2*x2 + x3 - 1)^2 - 31185*(x3 - 1)^4*(2*x2 + x3 - 1)^3 + 31185*(x3 - 1)^3*(2*x2 + x3 - 1)^4 + 45045*(x3 - 1)^2*(2*x2 + x3 - 1)^5 - 45045*(x3 - 1)*(2*x2 + x3 - 1)^6 + 3003*(2*x3 - 2)*(2*x2 + x3 - 1)^6 - 6435*(2*x2 + x3 - 1)^7)/(256*x3 - 256) + 256*(304*x3 + 95*(2*x3 - 1)^2 - 93)*(630*x2*(x3 - 1)^7 + 280*(x3 - 1)^8 + 945*(x3 - 1)^6*(2*x2 + x3 - 1)^2 - 3465*(x3 - 1)^5*(2*x2 + x3 - 1)^3 - 3465*(x3 - 1)^4*(2*x2 + x3 - 1)^4 + 9009*(x3 - 1)^3*(2*x2 + x3 - 1)^5 + 3003*(x3 - 1)^2*(2*x2 + x3 - 1)^6 - 6435*(x3 - 1)*(2*x2 + x3 - 1)^7)/(256*x3 - 256)^2;
  175/2*x2*(x3 - 1)^7 - 1925/8*(-x3 + 1)^6*(2*x2 + x3 - 1)^2 + 1925/4*(-x3 + 1)^5*(2*x2 + x3 - 1)^3 - 25025/8*(-x3 + 1)^2*(2*x2 + x3 - 1)^6 + 3575/4*(-x3 + 1)*(2*x2 + x3 - 1)^7 + 1575/32*(x3 - 1)^8 + 25025/16*(x3 - 1)^4*(2*x2 + x3 - 1)^4 + 5005/4*(x3 - 1)^3*(2*x2 + x3 - 1)^5 + 1/128*(20*x3 - 1)*(3920*x2*(x3 - 1)^6 - 1540*(-x3 + 1)^6*(4*x2 + 2*x3 - 2) + 18480*(-x3 + 1)^5*(2*x2 + x3 - 1)^2 - 15400*(-x3 + 1)^4*(2*x2 + x3 - 1)^3 - 120120*(-x3 + 1)^2*(2*x2 + x3 - 1)^5 + 40040*(-x3 + 1)*(2*x2 + x3 - 1)^6 + 2520*(x3 - 1)^7 + 40040*(x3 - 1)^4*(2*x2 + x3 - 1)^3 + 80080*(x3 - 1)^3*(2*x2 + x3 - 1)^4 + 24024*(x3 - 1)^2*(2*x2 + x3 - 1)^5 - 20020*(2*x3 - 2)*(2*x2 + x3 - 1)^6 + 91520*(2*x2 + x3 - 1)^7) + 60775/32*(2*x2 + x3 - 1)^8;
  1/256*(12474*x2*(x3 - 1)^8 + 72072*(-x3 + 1)^6*((-2)*x2 - x3 + 1)^3 - 162162*(-x3 + 1)^5*((-2)*x2 - x3 + 1)^4 - 270270*(-x3 + 1)^4*((-2)*x2 - x3 + 1)^5 + 175032*(-x3 + 1)^2*((-2)*x2 - x3 + 1)^7 - 415701*(-x3 + 1)*((-2)*x2 - x3 + 1)^8 + 6300*(x3 - 1)^9 + 2772*(x3 - 1)^8*(4*x2 + 2*x3 - 2) - 13860*(x3 - 1)^7*((-2)*x2 - x3 + 1)^2 + 84084*(x3 - 1)^6*((-2)*x2 - x3 + 1)^3 - 216216*(x3 - 1)^4*((-2)*x2 - x3 + 1)^5 - 468468*(x3 - 1)^3*((-2)*x2 - x3 + 1)^6 + 262548*(x3 - 1)^2*((-2)*x2 - x3 + 1)^7 - 21879*(2*x3 - 2)*((-2)*x2 - x3 + 1)^8 - 46189*((-2)*x2 - x3 + 1)^9)/(x3 - 1) - 1/256*(1386*x2*(x3 - 1)^9 - 18018*(-x3 + 1)^6*((-2)*x2 - x3 + 1)^4 + 54054*(-x3 + 1)^5*((-2)*x2 - x3 + 1)^5 - 21879*(-x3 + 1)^2*((-2)*x2 - x3 + 1)^8 + 46189*(-x3 + 1)*((-2)*x2 - x3 + 1)^9 + 630*(x3 - 1)^10 + 2772*(x3 - 1)^8*((-2)*x2 - x3 + 1)^2 + 12012*(x3 - 1)^7*((-2)*x2 - x3 + 1)^3 + 36036*(x3 - 1)^4*((-2)*x2 - x3 + 1)^6 + 87516*(x3 - 1)^3*((-2)*x2 - x3 + 1)^7)/(x3 - 1)^2;
  (-91)/8*x3 + 62985/128*(2*x3 - 1)^8 + 12597/16*(2*x3 - 1)^7 - 4641/32*(2*x3 - 1)^6 - 10829/16*(2*x3 - 1)^5 - 8645/64*(2*x3 - 1)^4 + 2275/16*(2*x3 - 1)^3 + 1183/32*(2*x3 - 1)^2 + 1/128*(2*x1 + x2 + x3 - 1)*(37856*x3 + 1007760*(2*x3 - 1)^7 + 1410864*(2*x3 - 1)^6 - 222768*(2*x3 - 1)^5 - 866320*(2*x3 - 1)^4 - 138320*(2*x3 - 1)^3 + 109200*(2*x3 - 1)^2 - 20384) + 609/128;
  1/16*(5*x2 + x3 - 1)*(2*x1 + x2 + x3 - 1)*((-840)*x3 + 135660*(2*x3 - 1)^6 + 244188*(2*x3 - 1)^5 + 85680*(2*x3 - 1)^4 - 52360*(2*x3 - 1)^3 - 28980*(2*x3 - 1)^2 + 1036) + 1/16*(5*x2 + x3 - 1)*(616*x3 + 9690*(2*x3 - 1)^7 + 20349*(2*x3 - 1)^6 + 8568*(2*x3 - 1)^5 - 6545*(2*x3 - 1)^4 - 4830*(2*x3 - 1)^3 - 105*(2*x3 - 1)^2 - 287) + 1/16*(2*x1 + x2 + x3 - 1)*(616*x3 + 9690*(2*x3 - 1)^7 + 20349*(2*x3 - 1)^6 + 8568*(2*x3 - 1)^5 - 6545*(2*x3 - 1)^4 - 4830*(2*x3 - 1)^3 - 105*(2*x3 - 1)^2 - 287);
  (-(36*x2*(x3 - 1)^2 + 17*(x3 - 1)^3 - 21*(x3 - 1)*(2*x2 + x3 - 1)^2))*(2*x1 + x2 + x3 - 1)*((-9960)*x3 + 58140*(2*x3 - 1)^5 + 116280*(2*x3 - 1)^4 + 67320*(2*x3 - 1)^3 + 4080*(2*x3 - 1)^2 + 4380)/(32*x3 - 32) - (36*x2*(x3 - 1)^2 + 17*(x3 - 1)^3 - 21*(x3 - 1)*(2*x2 + x3 - 1)^2)*((-600)*x3 + 4845*(2*x3 - 1)^6 + 11628*(2*x3 - 1)^5 + 8415*(2*x3 - 1)^4 + 680*(2*x3 - 1)^3 - 1245*(2*x3 - 1)^2 + 301)/(32*x3 - 32) - (2*x1 + x2 + x3 - 1)*(36*x2*(2*x3 - 2) + 51*(x3 - 1)^2 - 21*(x3 - 1)*(4*x2 + 2*x3 - 2) - 21*(2*x2 + x3 - 1)^2)*((-600)*x3 + 4845*(2*x3 - 1)^6 + 11628*(2*x3 - 1)^5 + 8415*(2*x3 - 1)^4 + 680*(2*x3 - 1)^3 - 1245*(2*x3 - 1)^2 + 301)/(32*x3 - 32) + 32*(36*x2*(x3 - 1)^2 + 17*(x3 - 1)^3 - 21*(x3 - 1)*(2*x2 + x3 - 1)^2)*(2*x1 + x2 + x3 - 1)*((-600)*x3 + 4845*(2*x3 - 1)^6 + 11628*(2*x3 - 1)^5 + 8415*(2*x3 - 1)^4 + 680*(2*x3 - 1)^3 - 1245*(2*x3 - 1)^2 + 301)/(32*x3 - 32)^2;
  1/8*(6*(x3 - 1)^2 - 21*(x3 - 1)*(4*x2 + 2*x3 - 2) + 42*(2*x2 + x3 - 1)^2)*(2*x1 + x2 + x3 - 1)*((-20)*x3 + 1938*(2*x3 - 1)^5 + 4845*(2*x3 - 1)^4 + 4080*(2*x3 - 1)^3 + 1190*(2*x3 - 1)^2 - 21) + 1/8*(2*(x3 - 1)^3 - 21*(x3 - 1)*(2*x2 + x3 - 1)^2 + 21*(2*x2 + x3 - 1)^3)*(2*x1 + x2 + x3 - 1)*(9520*x3 + 19380*(2*x3 - 1)^4 + 38760*(2*x3 - 1)^3 + 24480*(2*x3 - 1)^2 - 4780) + 1/8*(2*(x3 - 1)^3 - 21*(x3 - 1)*(2*x2 + x3 - 1)^2 + 21*(2*x2 + x3 - 1)^3)*((-20)*x3 + 1938*(2*x3 - 1)^5 + 4845*(2*x3 - 1)^4 + 4080*(2*x3 - 1)^3 + 1190*(2*x3 - 1)^2 - 21);
  1/128*(2*x1 + x2 + x3 - 1)*(75888*x3 + 38760*(2*x3 - 1)^3 + 69768*(2*x3 - 1)^2 - 32096)*(88*x2*(x3 - 1)^3 + 41*(x3 - 1)^4 - 18*(x3 - 1)^2*(2*x2 + x3 - 1)^2 - 180*(x3 - 1)*(2*x2 + x3 - 1)^3 + 165*(2*x2 + x3 - 1)^4) + 1/128*(2*x1 + x2 + x3 - 1)*(5848*x3 + 4845*(2*x3 - 1)^4 + 11628*(2*x3 - 1)^3 + 9486*(2*x3 - 1)^2 - 2687)*(264*x2*(x3 - 1)^2 + 164*(x3 - 1)^3 - 18*(x3 - 1)^2*(4*x2 + 2*x3 - 2) - 540*(x3 - 1)*(2*x2 + x3 - 1)^2 - 18*(2*x3 - 2)*(2*x2 + x3 - 1)^2 + 480*(2*x2 + x3 - 1)^3) + 1/128*(5848*x3 + 4845*(2*x3 - 1)^4 + 11628*(2*x3 - 1)^3 + 9486*(2*x3 - 1)^2 - 2687)*(88*x2*(x3 - 1)^3 + 41*(x3 - 1)^4 - 18*(x3 - 1)^2*(2*x2 + x3 - 1)^2 - 180*(x3 - 1)*(2*x2 + x3 - 1)^3 + 165*(2*x2 + x3 - 1)^4);
  1/128*(9576*x3 + 3420*(2*x3 - 1)^2 - 3204)*(2*x1 + x2 + x3 - 1)*((-90)*x2*(x3 - 1)^5 - 70*(-x3 + 1)^6 - 1485*(-x3 + 1)^2*((-2)*x2 - x3 + 1)^4 + 1287*(-x3 + 1)*((-2)*x2 - x3 + 1)^5 + 630*(x3 - 1)^4*((-2)*x2 - x3 + 1)^2 + 330*(x3 - 1)^3*((-2)*x2 - x3 + 1)^3)/(x3 - 1) + 1/128*(2*x1 + x2 + x3 - 1)*(1584*x3 + 570*(2*x3 - 1)^3 + 1197*(2*x3 - 1)^2 - 631)*((-450)*x2*(x3 - 1)^4 + 420*(-x3 + 1)^5 + 5940*(-x3 + 1)^2*((-2)*x2 - x3 + 1)^3 - 6435*(-x3 + 1)*((-2)*x2 - x3 + 1)^4 + 630*(x3 - 1)^4*(4*x2 + 2*x3 - 2) + 1530*(x3 - 1)^3*((-2)*x2 - x3 + 1)^2 + 990*(x3 - 1)^2*((-2)*x2 - x3 + 1)^3 - 1485*(2*x3 - 2)*((-2)*x2 - x3 + 1)^4 - 1287*((-2)*x2 - x3 + 1)^5)/(x3 - 1) + 1/128*(1584*x3 + 570*(2*x3 - 1)^3 + 1197*(2*x3 - 1)^2 - 631)*((-90)*x2*(x3 - 1)^5 - 70*(-x3 + 1)^6 - 1485*(-x3 + 1)^2*((-2)*x2 - x3 + 1)^4 + 1287*(-x3 + 1)*((-2)*x2 - x3 + 1)^5 + 630*(x3 - 1)^4*((-2)*x2 - x3 + 1)^2 + 330*(x3 - 1)^3*((-2)*x2 - x3 + 1)^3)/(x3 - 1) - 1/128*(2*x1 + x2 + x3 - 1)*(1584*x3 + 570*(2*x3 - 1)^3 + 1197*(2*x3 - 1)^2 - 631)*((-90)*x2*(x3 - 1)^5 - 70*(-x3 + 1)^6 - 1485*(-x3 + 1)^2*((-2)*x2 - x3 + 1)^4 + 1287*(-x3 + 1)*((-2)*x2 - x3 + 1)^5 + 630*(x3 - 1)^4*((-2)*x2 - x3 + 1)^2 + 330*(x3 - 1)^3*((-2)*x2 - x3 + 1)^3)/(x3 - 1)^2;
  (-(760*x3 - 76))*(2*x1 + x2 + x3 - 1)*(780*x2*(x3 - 1)^6 + 365*(x3 - 1)^7 + 165*(x3 - 1)^5*(2*x2 + x3 - 1)^2 - 3740*(x3 - 1)^4*(2*x2 + x3 - 1)^3 + 2145*(x3 - 1)^3*(2*x2 + x3 - 1)^4 + 6006*(x3 - 1)^2*(2*x2 + x3 - 1)^5 - 5005*(x3 - 1)*(2*x2 + x3 - 1)^6)/(128*x3 - 128) - (304*x3 + 95*(2*x3 - 1)^2 - 93)*(2*x1 + x2 + x3 - 1)*(4680*x2*(x3 - 1)^5 + 2555*(x3 - 1)^6 + 165*(x3 - 1)^5*(4*x2 + 2*x3 - 2) - 10395*(x3 - 1)^4*(2*x2 + x3 - 1)^2 - 6380*(x3 - 1)^3*(2*x2 + x3 - 1)^3 + 36465*(x3 - 1)^2*(2*x2 + x3 - 1)^4 - 30030*(x3 - 1)*(2*x2 + x3 - 1)^5 + 6006*(2*x3 - 2)*(2*x2 + x3 - 1)^5 - 5005*(2*x2 + x3 - 1)^6)/(128*x3 - 128) - (304*x3 + 95*(2*x3 - 1)^2 - 93)*(780*x2*(x3 - 1)^6 + 365*(x3 - 1)^7 + 165*(x3 - 1)^5*(2*x2 + x3 - 1)^2 - 3740*(x3 - 1)^4*(2*x2 + x3 - 1)^3 + 2145*(x3 - 1)^3*(2*x2 + x3 - 1)^4 + 6006*(x3 - 1)^2*(2*x2 + x3 - 1)^5 - 5005*(x3 - 1)*(2*x2 + x3 - 1)^6)/(128*x3 - 128) + 128*(304*x3 + 95*(2*x3 - 1)^2 - 93)*(2*x1 + x2 + x3 - 1)*(780*x2*(x3 - 1)^6 + 365*(x3 - 1)^7 + 165*(x3 - 1)^5*(2*x2 + x3 - 1)^2 - 3740*(x3 - 1)^4*(2*x2 + x3 - 1)^3 + 2145*(x3 - 1)^3*(2*x2 + x3 - 1)^4 + 6006*(x3 - 1)^2*(2*x2 + x3 - 1)^5 - 5005*(x3 - 1)*(2*x2 + x3 - 1)^6)/(128*x3 - 128)^2;
  1/32*(20*x3 - 1)*(2*x1 + x2 + x3 - 1)*(1078*x2*(x3 - 1)^6 - 924*(-x3 + 1)^6*(4*x2 + 2*x3 - 2) + 5544*(-x3 + 1)^5*((-2)*x2 - x3 + 1)^2 + 36036*(-x3 + 1)^2*((-2)*x2 - x3 + 1)^5 - 34034*(-x3 + 1)*((-2)*x2 - x3 + 1)^6 + 784*(x3 - 1)^7 - 20020*(x3 - 1)^4*((-2)*x2 - x3 + 1)^3 + 5005*(x3 - 1)^3*((-2)*x2 - x3 + 1)^4 + 9009*(x3 - 1)^2*((-2)*x2 - x3 + 1)^5 - 6006*(2*x3 - 2)*((-2)*x2 - x3 + 1)^6 - 4862*((-2)*x2 - x3 + 1)^7)/(x3 - 1) + 1/32*(20*x3 - 1)*(154*x2*(x3 - 1)^7 - 924*(-x3 + 1)^6*((-2)*x2 - x3 + 1)^2 - 6006*(-x3 + 1)^2*((-2)*x2 - x3 + 1)^6 + 4862*(-x3 + 1)*((-2)*x2 - x3 + 1)^7 + 98*(x3 - 1)^8 + 5005*(x3 - 1)^4*((-2)*x2 - x3 + 1)^4 + 3003*(x3 - 1)^3*((-2)*x2 - x3 + 1)^5)/(x3 - 1) + 5/8*(2*x1 + x2 + x3 - 1)*(154*x2*(x3 - 1)^7 - 924*(-x3 + 1)^6*((-2)*x2 - x3 + 1)^2 - 6006*(-x3 + 1)^2*((-2)*x2 - x3 + 1)^6 + 4862*(-x3 + 1)*((-2)*x2 - x3 + 1)^7 + 98*(x3 - 1)^8 + 5005*(x3 - 1)^4*((-2)*x2 - x3 + 1)^4 + 3003*(x3 - 1)^3*((-2)*x2 - x3 + 1)^5)/(x3 - 1) - 1/32*(20*x3 - 1)*(2*x1 + x2 + x3 - 1)*(154*x2*(x3 - 1)^7 - 924*(-x3 + 1)^6*((-2)*x2 - x3 + 1)^2 - 6006*(-x3 + 1)^2*((-2)*x2 - x3 + 1)^6 + 4862*(-x3 + 1)*((-2)*x2 - x3 + 1)^7 + 98*(x3 - 1)^8 + 5005*(x3 - 1)^4*((-2)*x2 - x3 + 1)^4 + 3003*(x3 - 1)^3*((-2)*x2 - x3 + 1)^5)/(x3 - 1)^2;
  105/8*x2*(x3 - 1)^7 + 1729/16*(-x3 + 1)^5*(2*x2 + x3 - 1)^3 - 7735/32*(-x3 + 1)^2*(2*x2 + x3 - 1)^6 + 5967/16*(-x3 + 1)*(2*x2 + x3 - 1)^7 + 791/128*(x3 - 1)^8 + 273/32*(x3 - 1)^6*(2*x2 + x3 - 1)^2 + 1365/64*(x3 - 1)^4*(2*x2 + x3 - 1)^4 + 6279/16*(x3 - 1)^3*(2*x2 + x3 - 1)^5 + 37791/128*(2*x2 + x3 - 1)^8 + 1/128*(2*x1 + x2 + x3 - 1)*(11760*x2*(x3 - 1)^6 + 41496*(-x3 + 1)^5*(2*x2 + x3 - 1)^2 - 69160*(-x3 + 1)^4*(2*x2 + x3 - 1)^3 - 185640*(-x3 + 1)^2*(2*x2 + x3 - 1)^5 + 334152*(-x3 + 1)*(2*x2 + x3 - 1)^6 + 6328*(x3 - 1)^7 + 1092*(x3 - 1)^6*(4*x2 + 2*x3 - 2) + 6552*(x3 - 1)^5*(2*x2 + x3 - 1)^2 + 10920*(x3 - 1)^4*(2*x2 + x3 - 1)^3 + 262080*(x3 - 1)^3*(2*x2 + x3 - 1)^4 + 150696*(x3 - 1)^2*(2*x2 + x3 - 1)^5 - 30940*(2*x3 - 2)*(2*x2 + x3 - 1)^6 + 254592*(2*x2 + x3 - 1)^7);
  1/32*(-(x2 + x3 - 1)^2 + 3*(2*x1 + x2 + x3 - 1)^2)*((-840)*x3 + 135660*(2*x3 - 1)^6 + 244188*(2*x3 - 1)^5 + 85680*(2*x3 - 1)^4 - 52360*(2*x3 - 1)^3 - 28980*(2*x3 - 1)^2 + 1036) + 1/32*(12*x1 + 4*x2 + 4*x3 - 4)*(616*x3 + 9690*(2*x3 - 1)^7 + 20349*(2*x3 - 1)^6 + 8568*(2*x3 - 1)^5 - 6545*(2*x3 - 1)^4 - 4830*(2*x3 - 1)^3 - 105*(2*x3 - 1)^2 - 287);
  1/16*(-(x2 + x3 - 1)^2 + 3*(2*x1 + x2 + x3 - 1)^2)*(7*x2 + x3 - 1)*((-9960)*x3 + 58140*(2*x3 - 1)^5 + 116280*(2*x3 - 1)^4 + 67320*(2*x3 - 1)^3 + 4080*(2*x3 - 1)^2 + 4380) + 1/16*(-(x2 + x3 - 1)^2 + 3*(2*x1 + x2 + x3 - 1)^2)*((-600)*x3 + 4845*(2*x3 - 1)^6 + 11628*(2*x3 - 1)^5 + 8415*(2*x3 - 1)^4 + 680*(2*x3 - 1)^3 - 1245*(2*x3 - 1)^2 + 301) + 1/16*(7*x2 + x3 - 1)*(12*x1 + 4*x2 + 4*x3 - 4)*((-600)*x3 + 4845*(2*x3 - 1)^6 + 11628*(2*x3 - 1)^5 + 8415*(2*x3 - 1)^4 + 680*(2*x3 - 1)^3 - 1245*(2*x3 - 1)^2 + 301);
  ((x2 + x3 - 1)^2 - 3*(2*x1 + x2 + x3 - 1)^2)*(20*x2*(x3 - 1)^2 + 8*(x3 - 1)^3 - 9*(x3 - 1)*(2*x2 + x3 - 1)^2)*(9520*x3 + 19380*(2*x3 - 1)^4 + 38760*(2*x3 - 1)^3 + 24480*(2*x3 - 1)^2 - 4780)/(8*x3 - 8) + ((x2 + x3 - 1)^2 - 3*(2*x1 + x2 + x3 - 1)^2)*(20*x2*(2*x3 - 2) + 24*(x3 - 1)^2 - 9*(x3 - 1)*(4*x2 + 2*x3 - 2) - 9*(2*x2 + x3 - 1)^2)*((-20)*x3 + 1938*(2*x3 - 1)^5 + 4845*(2*x3 - 1)^4 + 4080*(2*x3 - 1)^3 + 1190*(2*x3 - 1)^2 - 21)/(8*x3 - 8) + (20*x2*(x3 - 1)^2 + 8*(x3 - 1)^3 - 9*(x3 - 1)*(2*x2 + x3 - 1)^2)*((-12)*x1 - 4*x2 - 4*x3 + 4)*((-20)*x3 + 1938*(2*x3 - 1)^5 + 4845*(2*x3 - 1)^4 + 4080*(2*x3 - 1)^3 + 1190*(2*x3 - 1)^2 - 21)/(8*x3 - 8) - 8*((x2 + x3 - 1)^2 - 3*(2*x1 + x2 + x3 - 1)^2)*(20*x2*(x3 - 1)^2 + 8*(x3 - 1)^3 - 9*(x3 - 1)*(2*x2 + x3 - 1)^2)*((-20)*x3 + 1938*(2*x3 - 1)^5 + 4845*(2*x3 - 1)^4 + 4080*(2*x3 - 1)^3 + 1190*(2*x3 - 1)^2 - 21)/(8*x3 - 8)^2;
  1/256*(-(x2 + x3 - 1)^2 + 3*(2*x1 + x2 + x3 - 1)^2)*(75888*x3 + 38760*(2*x3 - 1)^3 + 69768*(2*x3 - 1)^2 - 32096)*(126*x2*(x3 - 1)^3 - 225*(-x3 + 1)^2*((-2)*x2 - x3 + 1)^2 + 165*(-x3 + 1)*((-2)*x2 - x3 + 1)^3 + 68*(x3 - 1)^4)/(x3 - 1) + 1/256*(-(x2 + x3 - 1)^2 + 3*(2*x1 + x2 + x3 - 1)^2)*(5848*x3 + 4845*(2*x3 - 1)^4 + 11628*(2*x3 - 1)^3 + 9486*(2*x3 - 1)^2 - 2687)*(378*x2*(x3 - 1)^2 - 225*(-x3 + 1)^2*(4*x2 + 2*x3 - 2) - 495*(-x3 + 1)*((-2)*x2 - x3 + 1)^2 + 272*(x3 - 1)^3 - 225*(2*x3 - 2)*((-2)*x2 - x3 + 1)^2 - 165*((-2)*x2 - x3 + 1)^3)/(x3 - 1) + 1/256*(12*x1 + 4*x2 + 4*x3 - 4)*(126*x2*(x3 - 1)^3 - 225*(-x3 + 1)^2*((-2)*x2 - x3 + 1)^2 + 165*(-x3 + 1)*((-2)*x2 - x3 + 1)^3 + 68*(x3 - 1)^4)*(5848*x3 + 4845*(2*x3 - 1)^4 + 11628*(2*x3 - 1)^3 + 9486*(2*x3 - 1)^2 - 2687)/(x3 - 1) - 1/256*(-(x2 + x3 - 1)^2 + 3*(2*x1 + x2 + x3 - 1)^2)*(126*x2*(x3 - 1)^3 - 225*(-x3 + 1)^2*((-2)*x2 - x3 + 1)^2 + 165*(-x3 + 1)*((-2)*x2 - x3 + 1)^3 + 68*(x3 - 1)^4)*(5848*x3 + 4845*(2*x3 - 1)^4 + 11628*(2*x3 - 1)^3 + 9486*(2*x3 - 1)^2 - 2687)/(x3 - 1)^2;
  1/128*(-(x2 + x3 - 1)^2 + 3*(2*x1 + x2 + x3 - 1)^2)*(9576*x3 + 3420*(2*x3 - 1)^2 - 3204)*(200*x2*(x3 - 1)^3 + 71*(x3 - 1)^4 + 330*(x3 - 1)^2*(2*x2 + x3 - 1)^2 - 1100*(x3 - 1)*(2*x2 + x3 - 1)^3 + 715*(2*x2 + x3 - 1)^4) + 1/128*(-(x2 + x3 - 1)^2 + 3*(2*x1 + x2 + x3 - 1)^2)*(1584*x3 + 570*(2*x3 - 1)^3 + 1197*(2*x3 - 1)^2 - 631)*(600*x2*(x3 - 1)^2 + 284*(x3 - 1)^3 + 330*(x3 - 1)^2*(4*x2 + 2*x3 - 2) - 3300*(x3 - 1)*(2*x2 + x3 - 1)^2 + 330*(2*x3 - 2)*(2*x2 + x3 - 1)^2 + 1760*(2*x2 + x3 - 1)^3) + 1/128*(12*x1 + 4*x2 + 4*x3 - 4)*(1584*x3 + 570*(2*x3 - 1)^3 + 1197*(2*x3 - 1)^2 - 631)*(200*x2*(x3 - 1)^3 + 71*(x3 - 1)^4 + 330*(x3 - 1)^2*(2*x2 + x3 - 1)^2 - 1100*(x3 - 1)*(2*x2 + x3 - 1)^3 + 715*(2*x2 + x3 - 1)^4);
  (760*x3 - 76)*((x2 + x3 - 1)^2 - 3*(2*x1 + x2 + x3 - 1)^2)*(770*x2*(x3 - 1)^5 + 386*(x3 - 1)^6 - 990*(x3 - 1)^4*(2*x2 + x3 - 1)^2 - 1430*(x3 - 1)^3*(2*x2 + x3 - 1)^3 + 5005*(x3 - 1)^2*(2*x2 + x3 - 1)^4 - 3003*(x3 - 1)*(2*x2 + x3 - 1)^5)/(128*x3 - 128) + ((x2 + x3 - 1)^2 - 3*(2*x1 + x2 + x3 - 1)^2)*(304*x3 + 95*(2*x3 - 1)^2 - 93)*(3850*x2*(x3 - 1)^4 + 2316*(x3 - 1)^5 - 990*(x3 - 1)^4*(4*x2 + 2*x3 - 2) - 8250*(x3 - 1)^3*(2*x2 + x3 - 1)^2 + 15730*(x3 - 1)^2*(2*x2 + x3 - 1)^3 - 15015*(x3 - 1)*(2*x2 + x3 - 1)^4 + 5005*(2*x3 - 2)*(2*x2 + x3 - 1)^4 - 3003*(2*x2 + x3 - 1)^5)/(128*x3 - 128) + (304*x3 + 95*(2*x3 - 1)^2 - 93)*((-12)*x1 - 4*x2 - 4*x3 + 4)*(770*x2*(x3 - 1)^5 + 386*(x3 - 1)^6 - 990*(x3 - 1)^4*(2*x2 + x3 - 1)^2 - 1430*(x3 - 1)^3*(2*x2 + x3 - 1)^3 + 5005*(x3 - 1)^2*(2*x2 + x3 - 1)^4 - 3003*(x3 - 1)*(2*x2 + x3 - 1)^5)/(128*x3 - 128) - 128*((x2 + x3 - 1)^2 - 3*(2*x1 + x2 + x3 - 1)^2)*(304*x3 + 95*(2*x3 - 1)^2 - 93)*(770*x2*(x3 - 1)^5 + 386*(x3 - 1)^6 - 990*(x3 - 1)^4*(2*x2 + x3 - 1)^2 - 1430*(x3 - 1)^3*(2*x2 + x3 - 1)^3 + 5005*(x3 - 1)^2*(2*x2 + x3 - 1)^4 - 3003*(x3 - 1)*(2*x2 + x3 - 1)^5)/(128*x3 - 128)^2;
  1/32*(20*x3 - 1)*((x2 + x3 - 1)^2 - 3*(2*x1 + x2 + x3 - 1)^2)*(480*x2*(x3 - 1)^4 + 138*(x3 - 1)^5 + 780*(x3 - 1)^4*(4*x2 + 2*x3 - 2) - 2340*(x3 - 1)^3*(2*x2 + x3 - 1)^2 - 10920*(x3 - 1)^2*(2*x2 + x3 - 1)^3 + 27300*(x3 - 1)*(2*x2 + x3 - 1)^4 - 1365*(2*x3 - 2)*(2*x2 + x3 - 1)^4 - 13104*(2*x2 + x3 - 1)^5) + 1/32*(20*x3 - 1)*((-12)*x1 - 4*x2 - 4*x3 + 4)*(96*x2*(x3 - 1)^5 + 23*(x3 - 1)^6 + 780*(x3 - 1)^4*(2*x2 + x3 - 1)^2 - 1820*(x3 - 1)^3*(2*x2 + x3 - 1)^3 - 1365*(x3 - 1)^2*(2*x2 + x3 - 1)^4 + 5460*(x3 - 1)*(2*x2 + x3 - 1)^5 - 3094*(2*x2 + x3 - 1)^6) + 5/8*((x2 + x3 - 1)^2 - 3*(2*x1 + x2 + x3 - 1)^2)*(96*x2*(x3 - 1)^5 + 23*(x3 - 1)^6 + 780*(x3 - 1)^4*(2*x2 + x3 - 1)^2 - 1820*(x3 - 1)^3*(2*x2 + x3 - 1)^3 - 1365*(x3 - 1)^2*(2*x2 + x3 - 1)^4 + 5460*(x3 - 1)*(2*x2 + x3 - 1)^5 - 3094*(2*x2 + x3 - 1)^6);
  1/64*(-(x2 + x3 - 1)^2 + 3*(2*x1 + x2 + x3 - 1)^2)*(6370*x2*(x3 - 1)^6 - 819*(-x3 + 1)^6*(4*x2 + 2*x3 - 2) + 4914*(-x3 + 1)^5*((-2)*x2 - x3 + 1)^2 - 23205*(-x3 + 1)^3*((-2)*x2 - x3 + 1)^4 + 125307*(-x3 + 1)^2*((-2)*x2 - x3 + 1)^5 - 88179*(-x3 + 1)*((-2)*x2 - x3 + 1)^6 + 3584*(x3 - 1)^7 - 15015*(x3 - 1)^5*((-2)*x2 - x3 + 1)^2 - 20475*(x3 - 1)^4*((-2)*x2 - x3 + 1)^3 + 45500*(x3 - 1)^3*((-2)*x2 - x3 + 1)^4 - 23205*(2*x3 - 2)*((-2)*x2 - x3 + 1)^6 - 12597*((-2)*x2 - x3 + 1)^7)/(x3 - 1) + 1/64*(12*x1 + 4*x2 + 4*x3 - 4)*(910*x2*(x3 - 1)^7 - 819*(-x3 + 1)^6*((-2)*x2 - x3 + 1)^2 + 4641*(-x3 + 1)^3*((-2)*x2 - x3 + 1)^5 - 23205*(-x3 + 1)^2*((-2)*x2 - x3 + 1)^6 + 12597*(-x3 + 1)*((-2)*x2 - x3 + 1)^7 + 448*(x3 - 1)^8 + 5005*(x3 - 1)^5*((-2)*x2 - x3 + 1)^3 + 11375*(x3 - 1)^4*((-2)*x2 - x3 + 1)^4)/(x3 - 1) - 1/64*(-(x2 + x3 - 1)^2 + 3*(2*x1 + x2 + x3 - 1)^2)*(910*x2*(x3 - 1)^7 - 819*(-x3 + 1)^6*((-2)*x2 - x3 + 1)^2 + 4641*(-x3 + 1)^3*((-2)*x2 - x3 + 1)^5 - 23205*(-x3 + 1)^2*((-2)*x2 - x3 + 1)^6 + 12597*(-x3 + 1)*((-2)*x2 - x3 + 1)^7 + 448*(x3 - 1)^8 + 5005*(x3 - 1)^5*((-2)*x2 - x3 + 1)^3 + 11375*(x3 - 1)^4*((-2)*x2 - x3 + 1)^4)/(x3 - 1)^2;
  (-(6*x1*(x2 + x3 - 1)^3 + 3*(x2 + x3 - 1)^4 - 5*(x2 + x3 - 1)*(2*x1 + x2 + x3 - 1)^3))*((-9960)*x3 + 58140*(2*x3 - 1)^5 + 116280*(2*x3 - 1)^4 + 67320*(2*x3 - 1)^3 + 4080*(2*x3 - 1)^2 + 4380)/(16*x2 + 16*x3 - 16) - (18*x1*(x2 + x3 - 1)^2 + 12*(x2 + x3 - 1)^3 - 15*(x2 + x3 - 1)*(2*x1 + x2 + x3 - 1)^2 - 5*(2*x1 + x2 + x3 - 1)^3)*((-600)*x3 + 4845*(2*x3 - 1)^6 + 11628*(2*x3 - 1)^5 + 8415*(2*x3 - 1)^4 + 680*(2*x3 - 1)^3 - 1245*(2*x3 - 1)^2 + 301)/(16*x2 + 16*x3 - 16) + 16*(6*x1*(x2 + x3 - 1)^3 + 3*(x2 + x3 - 1)^4 - 5*(x2 + x3 - 1)*(2*x1 + x2 + x3 - 1)^3)*((-600)*x3 + 4845*(2*x3 - 1)^6 + 11628*(2*x3 - 1)^5 + 8415*(2*x3 - 1)^4 + 680*(2*x3 - 1)^3 - 1245*(2*x3 - 1)^2 + 301)/(16*x2 + 16*x3 - 16)^2;
  1/8*(9*x2 + x3 - 1)*(6*x1*(x2 + x3 - 1)^3 + 5*(-x2 - x3 + 1)*(2*x1 + x2 + x3 - 1)^3 + 3*(x2 + x3 - 1)^4)*(9520*x3 + 19380*(2*x3 - 1)^4 + 38760*(2*x3 - 1)^3 + 24480*(2*x3 - 1)^2 - 4780)/(-x2 - x3 + 1) + 1/8*(9*x2 + x3 - 1)*(18*x1*(x2 + x3 - 1)^2 + 15*(-x2 - x3 + 1)*(2*x1 + x2 + x3 - 1)^2 + 12*(x2 + x3 - 1)^3 - 5*(2*x1 + x2 + x3 - 1)^3)*((-20)*x3 + 1938*(2*x3 - 1)^5 + 4845*(2*x3 - 1)^4 + 4080*(2*x3 - 1)^3 + 1190*(2*x3 - 1)^2 - 21)/(-x2 - x3 + 1) + 1/8*(6*x1*(x2 + x3 - 1)^3 + 5*(-x2 - x3 + 1)*(2*x1 + x2 + x3 - 1)^3 + 3*(x2 + x3 - 1)^4)*((-20)*x3 + 1938*(2*x3 - 1)^5 + 4845*(2*x3 - 1)^4 + 4080*(2*x3 - 1)^3 + 1190*(2*x3 - 1)^2 - 21)/(-x2 - x3 + 1) + 1/8*(9*x2 + x3 - 1)*(6*x1*(x2 + x3 - 1)^3 + 5*(-x2 - x3 + 1)*(2*x1 + x2 + x3 - 1)^3 + 3*(x2 + x3 - 1)^4)*((-20)*x3 + 1938*(2*x3 - 1)^5 + 4845*(2*x3 - 1)^4 + 4080*(2*x3 - 1)^3 + 1190*(2*x3 - 1)^2 - 21)/(-x2 - x3 + 1)^2;
  1/128*(6*x1*(x2 + x3 - 1)^3 + 5*(-x2 - x3 + 1)*(2*x1 + x2 + x3 - 1)^3 + 3*(x2 + x3 - 1)^4)*(140*x2*(x3 - 1)^2 + 55*(-x3 + 1)*((-2)*x2 - x3 + 1)^2 + 51*(x3 - 1)^3)*(75888*x3 + 38760*(2*x3 - 1)^3 + 69768*(2*x3 - 1)^2 - 32096)/((x3 - 1)*(x2 + x3 - 1)) + 1/128*(6*x1*(x2 + x3 - 1)^3 + 5*(-x2 - x3 + 1)*(2*x1 + x2 + x3 - 1)^3 + 3*(x2 + x3 - 1)^4)*(140*x2*(2*x3 - 2) + 55*(-x3 + 1)*(4*x2 + 2*x3 - 2) + 153*(x3 - 1)^2 - 55*((-2)*x2 - x3 + 1)^2)*(5848*x3 + 4845*(2*x3 - 1)^4 + 11628*(2*x3 - 1)^3 + 9486*(2*x3 - 1)^2 - 2687)/((x3 - 1)*(x2 + x3 - 1)) + 1/128*(140*x2*(x3 - 1)^2 + 55*(-x3 + 1)*((-2)*x2 - x3 + 1)^2 + 51*(x3 - 1)^3)*(18*x1*(x2 + x3 - 1)^2 + 15*(-x2 - x3 + 1)*(2*x1 + x2 + x3 - 1)^2 + 12*(x2 + x3 - 1)^3 - 5*(2*x1 + x2 + x3 - 1)^3)*(5848*x3 + 4845*(2*x3 - 1)^4 + 11628*(2*x3 - 1)^3 + 9486*(2*x3 - 1)^2 - 2687)/((x3 - 1)*(x2 + x3 - 1)) - 1/128*(6*x1*(x2 + x3 - 1)^3 + 5*(-x2 - x3 + 1)*(2*x1 + x2 + x3 - 1)^3 + 3*(x2 + x3 - 1)^4)*(140*x2*(x3 - 1)^2 + 55*(-x3 + 1)*((-2)*x2 - x3 + 1)^2 + 51*(x3 - 1)^3)*(5848*x3 + 4845*(2*x3 - 1)^4 + 11628*(2*x3 - 1)^3 + 9486*(2*x3 - 1)^2 - 2687)/((x3 - 1)*(x2 + x3 - 1)^2) - 1/128*(6*x1*(x2 + x3 - 1)^3 + 5*(-x2 - x3 + 1)*(2*x1 + x2 + x3 - 1)^3 + 3*(x2 + x3 - 1)^4)*(140*x2*(x3 - 1)^2 + 55*(-x3 + 1)*((-2)*x2 - x3 + 1)^2 + 51*(x3 - 1)^3)*(5848*x3 + 4845*(2*x3 - 1)^4 + 11628*(2*x3 - 1)^3 + 9486*(2*x3 - 1)^2 - 2687)/((x3 - 1)^2*(x2 + x3 - 1));
  (-(9576*x3 + 3420*(2*x3 - 1)^2 - 3204))*(6*x1*(x2 + x3 - 1)^3 + 3*(x2 + x3 - 1)^4 - 5*(x2 + x3 - 1)*(2*x1 + x2 + x3 - 1)^3)*(198*x2*(x3 - 1)^2 + 92*(x3 - 1)^3 - 231*(x3 - 1)*(2*x2 + x3 - 1)^2 + 143*(2*x2 + x3 - 1)^3)/(32*x2 + 32*x3 - 32) - (6*x1*(x2 + x3 - 1)^3 + 3*(x2 + x3 - 1)^4 - 5*(x2 + x3 - 1)*(2*x1 + x2 + x3 - 1)^3)*(1584*x3 + 570*(2*x3 - 1)^3 + 1197*(2*x3 - 1)^2 - 631)*(198*x2*(2*x3 - 2) + 276*(x3 - 1)^2 - 231*(x3 - 1)*(4*x2 + 2*x3 - 2) + 198*(2*x2 + x3 - 1)^2)/(32*x2 + 32*x3 - 32) - (1584*x3 + 570*(2*x3 - 1)^3 + 1197*(2*x3 - 1)^2 - 631)*(18*x1*(x2 + x3 - 1)^2 + 12*(x2 + x3 - 1)^3 - 15*(x2 + x3 - 1)*(2*x1 + x2 + x3 - 1)^2 - 5*(2*x1 + x2 + x3 - 1)^3)*(198*x2*(x3 - 1)^2 + 92*(x3 - 1)^3 - 231*(x3 - 1)*(2*x2 + x3 - 1)^2 + 143*(2*x2 + x3 - 1)^3)/(32*x2 + 32*x3 - 32) + 32*(6*x1*(x2 + x3 - 1)^3 + 3*(x2 + x3 - 1)^4 - 5*(x2 + x3 - 1)*(2*x1 + x2 + x3 - 1)^3)*(1584*x3 + 570*(2*x3 - 1)^3 + 1197*(2*x3 - 1)^2 - 631)*(198*x2*(x3 - 1)^2 + 92*(x3 - 1)^3 - 231*(x3 - 1)*(2*x2 + x3 - 1)^2 + 143*(2*x2 + x3 - 1)^3)/(32*x2 + 32*x3 - 32)^2;
  (760*x3 - 76)*(6*x1*(x2 + x3 - 1)^3 + 3*(x2 + x3 - 1)^4 - 5*(x2 + x3 - 1)*(2*x1 + x2 + x3 - 1)^3)*(168*x2*(x3 - 1)^3 + 127*(x3 - 1)^4 - 1326*(x3 - 1)^2*(2*x2 + x3 - 1)^2 + 2548*(x3 - 1)*(2*x2 + x3 - 1)^3 - 1365*(2*x2 + x3 - 1)^4)/(64*x2 + 64*x3 - 64) + (304*x3 + 95*(2*x3 - 1)^2 - 93)*(6*x1*(x2 + x3 - 1)^3 + 3*(x2 + x3 - 1)^4 - 5*(x2 + x3 - 1)*(2*x1 + x2 + x3 - 1)^3)*(504*x2*(x3 - 1)^2 + 508*(x3 - 1)^3 - 1326*(x3 - 1)^2*(4*x2 + 2*x3 - 2) + 7644*(x3 - 1)*(2*x2 + x3 - 1)^2 - 1326*(2*x3 - 2)*(2*x2 + x3 - 1)^2 - 2912*(2*x2 + x3 - 1)^3)/(64*x2 + 64*x3 - 64) + (304*x3 + 95*(2*x3 - 1)^2 - 93)*(18*x1*(x2 + x3 - 1)^2 + 12*(x2 + x3 - 1)^3 - 15*(x2 + x3 - 1)*(2*x1 + x2 + x3 - 1)^2 - 5*(2*x1 + x2 + x3 - 1)^3)*(168*x2*(x3 - 1)^3 + 127*(x3 - 1)^4 - 1326*(x3 - 1)^2*(2*x2 + x3 - 1)^2 + 2548*(x3 - 1)*(2*x2 + x3 - 1)^3 - 1365*(2*x2 + x3 - 1)^4)/(64*x2 + 64*x3 - 64) - 64*(304*x3 + 95*(2*x3 - 1)^2 - 93)*(6*x1*(x2 + x3 - 1)^3 + 3*(x2 + x3 - 1)^4 - 5*(x2 + x3 - 1)*(2*x1 + x2 + x3 - 1)^3)*(168*x2*(x3 - 1)^3 + 127*(x3 - 1)^4 - 1326*(x3 - 1)^2*(2*x2 + x3 - 1)^2 + 2548*(x3 - 1)*(2*x2 + x3 - 1)^3 - 1365*(2*x2 + x3 - 1)^4)/(64*x2 + 64*x3 - 64)^2;
  1/16*(20*x3 - 1)*(6*x1*(x2 + x3 - 1)^3 + 5*(-x2 - x3 + 1)*(2*x1 + x2 + x3 - 1)^3 + 3*(x2 + x3 - 1)^4)*(1950*x2*(x3 - 1)^4 + 5460*(-x3 + 1)^3*(2*x2 + x3 - 1)^2 - 5460*(-x3 + 1)^2*(2*x2 + x3 - 1)^3 + 7735*(-x3 + 1)*(2*x2 + x3 - 1)^4 + 1044*(x3 - 1)^5 + 12740*(x3 - 1)^2*(2*x2 + x3 - 1)^3 + 3185*(2*x3 - 2)*(2*x2 + x3 - 1)^4 - 1547*(2*x2 + x3 - 1)^5)/((x3 - 1)*(x2 + x3 - 1)) + 1/16*(20*x3 - 1)*(18*x1*(x2 + x3 - 1)^2 + 15*(-x2 - x3 + 1)*(2*x1 + x2 + x3 - 1)^2 + 12*(x2 + x3 - 1)^3 - 5*(2*x1 + x2 + x3 - 1)^3)*(390*x2*(x3 - 1)^5 + 1820*(-x3 + 1)^3*(2*x2 + x3 - 1)^3 + 1547*(-x3 + 1)*(2*x2 + x3 - 1)^5 + 174*(x3 - 1)^6 + 3185*(x3 - 1)^2*(2*x2 + x3 - 1)^4)/((x3 - 1)*(x2 + x3 - 1)) - 1/16*(20*x3 - 1)*(6*x1*(x2 + x3 - 1)^3 + 5*(-x2 - x3 + 1)*(2*x1 + x2 + x3 - 1)^3 + 3*(x2 + x3 - 1)^4)*(390*x2*(x3 - 1)^5 + 1820*(-x3 + 1)^3*(2*x2 + x3 - 1)^3 + 1547*(-x3 + 1)*(2*x2 + x3 - 1)^5 + 174*(x3 - 1)^6 + 3185*(x3 - 1)^2*(2*x2 + x3 - 1)^4)/((x3 - 1)*(x2 + x3 - 1)^2) + 5/4*(6*x1*(x2 + x3 - 1)^3 + 5*(-x2 - x3 + 1)*(2*x1 + x2 + x3 - 1)^3 + 3*(x2 + x3 - 1)^4)*(390*x2*(x3 - 1)^5 + 1820*(-x3 + 1)^3*(2*x2 + x3 - 1)^3 + 1547*(-x3 + 1)*(2*x2 + x3 - 1)^5 + 174*(x3 - 1)^6 + 3185*(x3 - 1)^2*(2*x2 + x3 - 1)^4)/((x3 - 1)*(x2 + x3 - 1)) - 1/16*(20*x3 - 1)*(6*x1*(x2 + x3 - 1)^3 + 5*(-x2 - x3 + 1)*(2*x1 + x2 + x3 - 1)^3 + 3*(x2 + x3 - 1)^4)*(390*x2*(x3 - 1)^5 + 1820*(-x3 + 1)^3*(2*x2 + x3 - 1)^3 + 1547*(-x3 + 1)*(2*x2 + x3 - 1)^5 + 174*(x3 - 1)^6 + 3185*(x3 - 1)^2*(2*x2 + x3 - 1)^4)/((x3 - 1)^2*(x2 + x3 - 1));
  (-(6*x1*(x2 + x3 - 1)^3 + 3*(x2 + x3 - 1)^4 - 5*(x2 + x3 - 1)*(2*x1 + x2 + x3 - 1)^3))*(2940*x2*(x3 - 1)^4 + 1902*(x3 - 1)^5 - 1995*(x3 - 1)^4*(4*x2 + 2*x3 - 2) - 5040*(x3 - 1)^3*(2*x2 + x3 - 1)^2 + 38640*(x3 - 1)^2*(2*x2 + x3 - 1)^3 - 74970*(x3 - 1)*(2*x2 + x3 - 1)^4 + 8925*(2*x3 - 2)*(2*x2 + x3 - 1)^4 + 25704*(2*x2 + x3 - 1)^5)/(32*x2 + 32*x3 - 32) - (18*x1*(x2 + x3 - 1)^2 + 12*(x2 + x3 - 1)^3 - 15*(x2 + x3 - 1)*(2*x1 + x2 + x3 - 1)^2 - 5*(2*x1 + x2 + x3 - 1)^3)*(588*x2*(x3 - 1)^5 + 317*(x3 - 1)^6 - 1995*(x3 - 1)^4*(2*x2 + x3 - 1)^2 + 980*(x3 - 1)^3*(2*x2 + x3 - 1)^3 + 8925*(x3 - 1)^2*(2*x2 + x3 - 1)^4 - 14994*(x3 - 1)*(2*x2 + x3 - 1)^5 + 6783*(2*x2 + x3 - 1)^6)/(32*x2 + 32*x3 - 32) + 32*(6*x1*(x2 + x3 - 1)^3 + 3*(x2 + x3 - 1)^4 - 5*(x2 + x3 - 1)*(2*x1 + x2 + x3 - 1)^3)*(588*x2*(x3 - 1)^5 + 317*(x3 - 1)^6 - 1995*(x3 - 1)^4*(2*x2 + x3 - 1)^2 + 980*(x3 - 1)^3*(2*x2 + x3 - 1)^3 + 8925*(x3 - 1)^2*(2*x2 + x3 - 1)^4 - 14994*(x3 - 1)*(2*x2 + x3 - 1)^5 + 6783*(2*x2 + x3 - 1)^6)/(32*x2 + 32*x3 - 32)^2;
  1/32*(3*(x2 + x3 - 1)^4 - 30*(x2 + x3 - 1)^2*(2*x1 + x2 + x3 - 1)^2 + 35*(2*x1 + x2 + x3 - 1)^4)*(9520*x3 + 19380*(2*x3 - 1)^4 + 38760*(2*x3 - 1)^3 + 24480*(2*x3 - 1)^2 - 4780) + 1/32*(12*(x2 + x3 - 1)^3 - 30*(x2 + x3 - 1)^2*(4*x1 + 2*x2 + 2*x3 - 2) - 30*(2*x2 + 2*x3 - 2)*(2*x1 + x2 + x3 - 1)^2 + 140*(2*x1 + x2 + x3 - 1)^3)*((-20)*x3 + 1938*(2*x3 - 1)^5 + 4845*(2*x3 - 1)^4 + 4080*(2*x3 - 1)^3 + 1190*(2*x3 - 1)^2 - 21);
  1/128*(11*x2 + x3 - 1)*(3*(x2 + x3 - 1)^4 - 30*(x2 + x3 - 1)^2*(2*x1 + x2 + x3 - 1)^2 + 35*(2*x1 + x2 + x3 - 1)^4)*(75888*x3 + 38760*(2*x3 - 1)^3 + 69768*(2*x3 - 1)^2 - 32096) + 1/128*(11*x2 + x3 - 1)*(12*(x2 + x3 - 1)^3 - 30*(x2 + x3 - 1)^2*(4*x1 + 2*x2 + 2*x3 - 2) - 30*(2*x2 + 2*x3 - 2)*(2*x1 + x2 + x3 - 1)^2 + 140*(2*x1 + x2 + x3 - 1)^3)*(5848*x3 + 4845*(2*x3 - 1)^4 + 11628*(2*x3 - 1)^3 + 9486*(2*x3 - 1)^2 - 2687) + 1/128*(3*(x2 + x3 - 1)^4 - 30*(x2 + x3 - 1)^2*(2*x1 + x2 + x3 - 1)^2 + 35*(2*x1 + x2 + x3 - 1)^4)*(5848*x3 + 4845*(2*x3 - 1)^4 + 11628*(2*x3 - 1)^3 + 9486*(2*x3 - 1)^2 - 2687);
  (-(9576*x3 + 3420*(2*x3 - 1)^2 - 3204))*(108*x2*(x3 - 1)^2 + 37*(x3 - 1)^3 - 39*(x3 - 1)*(2*x2 + x3 - 1)^2)*(3*(x2 + x3 - 1)^4 - 30*(x2 + x3 - 1)^2*(2*x1 + x2 + x3 - 1)^2 + 35*(2*x1 + x2 + x3 - 1)^4)/(64*x3 - 64) - (108*x2*(x3 - 1)^2 + 37*(x3 - 1)^3 - 39*(x3 - 1)*(2*x2 + x3 - 1)^2)*(1584*x3 + 570*(2*x3 - 1)^3 + 1197*(2*x3 - 1)^2 - 631)*(12*(x2 + x3 - 1)^3 - 30*(x2 + x3 - 1)^2*(4*x1 + 2*x2 + 2*x3 - 2) - 30*(2*x2 + 2*x3 - 2)*(2*x1 + x2 + x3 - 1)^2 + 140*(2*x1 + x2 + x3 - 1)^3)/(64*x3 - 64) - (3*(x2 + x3 - 1)^4 - 30*(x2 + x3 - 1)^2*(2*x1 + x2 + x3 - 1)^2 + 35*(2*x1 + x2 + x3 - 1)^4)*(1584*x3 + 570*(2*x3 - 1)^3 + 1197*(2*x3 - 1)^2 - 631)*(108*x2*(2*x3 - 2) + 111*(x3 - 1)^2 - 39*(x3 - 1)*(4*x2 + 2*x3 - 2) - 39*(2*x2 + x3 - 1)^2)/(64*x3 - 64) + 64*(108*x2*(x3 - 1)^2 + 37*(x3 - 1)^3 - 39*(x3 - 1)*(2*x2 + x3 - 1)^2)*(3*(x2 + x3 - 1)^4 - 30*(x2 + x3 - 1)^2*(2*x1 + x2 + x3 - 1)^2 + 35*(2*x1 + x2 + x3 - 1)^4)*(1584*x3 + 570*(2*x3 - 1)^3 + 1197*(2*x3 - 1)^2 - 631)/(64*x3 - 64)^2;
  1/128*(760*x3 - 76)*(3*(x2 + x3 - 1)^4 - 30*(x2 + x3 - 1)^2*(2*x1 + x2 + x3 - 1)^2 + 35*(2*x1 + x2 + x3 - 1)^4)*(858*x2*(x3 - 1)^3 - 819*(-x3 + 1)^2*((-2)*x2 - x3 + 1)^2 + 455*(-x3 + 1)*((-2)*x2 - x3 + 1)^3 + 372*(x3 - 1)^4)/(x3 - 1) + 1/128*(304*x3 + 95*(2*x3 - 1)^2 - 93)*(3*(x2 + x3 - 1)^4 - 30*(x2 + x3 - 1)^2*(2*x1 + x2 + x3 - 1)^2 + 35*(2*x1 + x2 + x3 - 1)^4)*(2574*x2*(x3 - 1)^2 - 819*(-x3 + 1)^2*(4*x2 + 2*x3 - 2) - 1365*(-x3 + 1)*((-2)*x2 - x3 + 1)^2 + 1488*(x3 - 1)^3 - 819*(2*x3 - 2)*((-2)*x2 - x3 + 1)^2 - 455*((-2)*x2 - x3 + 1)^3)/(x3 - 1) + 1/128*(304*x3 + 95*(2*x3 - 1)^2 - 93)*(858*x2*(x3 - 1)^3 - 819*(-x3 + 1)^2*((-2)*x2 - x3 + 1)^2 + 455*(-x3 + 1)*((-2)*x2 - x3 + 1)^3 + 372*(x3 - 1)^4)*(12*(x2 + x3 - 1)^3 - 30*(x2 + x3 - 1)^2*(4*x1 + 2*x2 + 2*x3 - 2) - 30*(2*x2 + 2*x3 - 2)*(2*x1 + x2 + x3 - 1)^2 + 140*(2*x1 + x2 + x3 - 1)^3)/(x3 - 1) - 1/128*(304*x3 + 95*(2*x3 - 1)^2 - 93)*(3*(x2 + x3 - 1)^4 - 30*(x2 + x3 - 1)^2*(2*x1 + x2 + x3 - 1)^2 + 35*(2*x1 + x2 + x3 - 1)^4)*(858*x2*(x3 - 1)^3 - 819*(-x3 + 1)^2*((-2)*x2 - x3 + 1)^2 + 455*(-x3 + 1)*((-2)*x2 - x3 + 1)^3 + 372*(x3 - 1)^4)/(x3 - 1)^2;
  1/32*(20*x3 - 1)*(3*(x2 + x3 - 1)^4 - 30*(x2 + x3 - 1)^2*(2*x1 + x2 + x3 - 1)^2 + 35*(2*x1 + x2 + x3 - 1)^4)*((-1008)*x2*(x3 - 1)^2 - 684*(x3 - 1)^3 + 840*(x3 - 1)^2*(4*x2 + 2*x3 - 2) - 3780*(x3 - 1)*(2*x2 + x3 - 1)^2 + 840*(2*x3 - 2)*(2*x2 + x3 - 1)^2 + 1120*(2*x2 + x3 - 1)^3) + 1/32*(20*x3 - 1)*(12*(x2 + x3 - 1)^3 - 30*(x2 + x3 - 1)^2*(4*x1 + 2*x2 + 2*x3 - 2) - 30*(2*x2 + 2*x3 - 2)*(2*x1 + x2 + x3 - 1)^2 + 140*(2*x1 + x2 + x3 - 1)^3)*((-336)*x2*(x3 - 1)^3 - 171*(x3 - 1)^4 + 840*(x3 - 1)^2*(2*x2 + x3 - 1)^2 - 1260*(x3 - 1)*(2*x2 + x3 - 1)^3 + 595*(2*x2 + x3 - 1)^4) + 5/8*(3*(x2 + x3 - 1)^4 - 30*(x2 + x3 - 1)^2*(2*x1 + x2 + x3 - 1)^2 + 35*(2*x1 + x2 + x3 - 1)^4)*((-336)*x2*(x3 - 1)^3 - 171*(x3 - 1)^4 + 840*(x3 - 1)^2*(2*x2 + x3 - 1)^2 - 1260*(x3 - 1)*(2*x2 + x3 - 1)^3 + 595*(2*x2 + x3 - 1)^4);
  (-(3*(x2 + x3 - 1)^4 - 30*(x2 + x3 - 1)^2*(2*x1 + x2 + x3 - 1)^2 + 35*(2*x1 + x2 + x3 - 1)^4))*(1650*x2*(x3 - 1)^4 + 684*(x3 - 1)^5 + 1170*(x3 - 1)^4*(4*x2 + 2*x3 - 2) - 11130*(x3 - 1)^3*(2*x2 + x3 - 1)^2 + 11730*(x3 - 1)^2*(2*x2 + x3 - 1)^3 - 14535*(x3 - 1)*(2*x2 + x3 - 1)^4 + 6885*(2*x3 - 2)*(2*x2 + x3 - 1)^4 - 2907*(2*x2 + x3 - 1)^5)/(64*x3 - 64) - (12*(x2 + x3 - 1)^3 - 30*(x2 + x3 - 1)^2*(4*x1 + 2*x2 + 2*x3 - 2) - 30*(2*x2 + 2*x3 - 2)*(2*x1 + x2 + x3 - 1)^2 + 140*(2*x1 + x2 + x3 - 1)^3)*(330*x2*(x3 - 1)^5 + 114*(x3 - 1)^6 + 1170*(x3 - 1)^4*(2*x2 + x3 - 1)^2 - 5270*(x3 - 1)^3*(2*x2 + x3 - 1)^3 + 6885*(x3 - 1)^2*(2*x2 + x3 - 1)^4 - 2907*(x3 - 1)*(2*x2 + x3 - 1)^5)/(64*x3 - 64) + 64*(3*(x2 + x3 - 1)^4 - 30*(x2 + x3 - 1)^2*(2*x1 + x2 + x3 - 1)^2 + 35*(2*x1 + x2 + x3 - 1)^4)*(330*x2*(x3 - 1)^5 + 114*(x3 - 1)^6 + 1170*(x3 - 1)^4*(2*x2 + x3 - 1)^2 - 5270*(x3 - 1)^3*(2*x2 + x3 - 1)^3 + 6885*(x3 - 1)^2*(2*x2 + x3 - 1)^4 - 2907*(x3 - 1)*(2*x2 + x3 - 1)^5)/(64*x3 - 64)^2;
  1/128*(75888*x3 + 38760*(2*x3 - 1)^3 + 69768*(2*x3 - 1)^2 - 32096)*(30*x1*(x2 + x3 - 1)^5 + 63*(-x2 - x3 + 1)*((-2)*x1 - x2 - x3 + 1)^5 + 15*(x2 + x3 - 1)^6 + 70*(x2 + x3 - 1)^3*((-2)*x1 - x2 - x3 + 1)^3)/(x2 + x3 - 1) + 1/128*(5848*x3 + 4845*(2*x3 - 1)^4 + 11628*(2*x3 - 1)^3 + 9486*(2*x3 - 1)^2 - 2687)*(150*x1*(x2 + x3 - 1)^4 - 315*(-x2 - x3 + 1)*((-2)*x1 - x2 - x3 + 1)^4 + 90*(x2 + x3 - 1)^5 - 210*(x2 + x3 - 1)^3*((-2)*x1 - x2 - x3 + 1)^2 + 210*(x2 + x3 - 1)^2*((-2)*x1 - x2 - x3 + 1)^3 - 63*((-2)*x1 - x2 - x3 + 1)^5)/(x2 + x3 - 1) - 1/128*(30*x1*(x2 + x3 - 1)^5 + 63*(-x2 - x3 + 1)*((-2)*x1 - x2 - x3 + 1)^5 + 15*(x2 + x3 - 1)^6 + 70*(x2 + x3 - 1)^3*((-2)*x1 - x2 - x3 + 1)^3)*(5848*x3 + 4845*(2*x3 - 1)^4 + 11628*(2*x3 - 1)^3 + 9486*(2*x3 - 1)^2 - 2687)/(x2 + x3 - 1)^2;
  1/32*(13*x2 + x3 - 1)*(9576*x3 + 3420*(2*x3 - 1)^2 - 3204)*(30*x1*(x2 + x3 - 1)^5 + 63*(-x2 - x3 + 1)*((-2)*x1 - x2 - x3 + 1)^5 + 15*(x2 + x3 - 1)^6 + 70*(x2 + x3 - 1)^3*((-2)*x1 - x2 - x3 + 1)^3)/(x2 + x3 - 1) + 1/32*(13*x2 + x3 - 1)*(1584*x3 + 570*(2*x3 - 1)^3 + 1197*(2*x3 - 1)^2 - 631)*(150*x1*(x2 + x3 - 1)^4 - 315*(-x2 - x3 + 1)*((-2)*x1 - x2 - x3 + 1)^4 + 90*(x2 + x3 - 1)^5 - 210*(x2 + x3 - 1)^3*((-2)*x1 - x2 - x3 + 1)^2 + 210*(x2 + x3 - 1)^2*((-2)*x1 - x2 - x3 + 1)^3 - 63*((-2)*x1 - x2 - x3 + 1)^5)/(x2 + x3 - 1) + 1/32*(1584*x3 + 570*(2*x3 - 1)^3 + 1197*(2*x3 - 1)^2 - 631)*(30*x1*(x2 + x3 - 1)^5 + 63*(-x2 - x3 + 1)*((-2)*x1 - x2 - x3 + 1)^5 + 15*(x2 + x3 - 1)^6 + 70*(x2 + x3 - 1)^3*((-2)*x1 - x2 - x3 + 1)^3)/(x2 + x3 - 1) - 1/32*(13*x2 + x3 - 1)*(1584*x3 + 570*(2*x3 - 1)^3 + 1197*(2*x3 - 1)^2 - 631)*(30*x1*(x2 + x3 - 1)^5 + 63*(-x2 - x3 + 1)*((-2)*x1 - x2 - x3 + 1)^5 + 15*(x2 + x3 - 1)^6 + 70*(x2 + x3 - 1)^3*((-2)*x1 - x2 - x3 + 1)^3)/(x2 + x3 - 1)^2;
  (-1)/64*(760*x3 - 76)*(308*x2*(x3 - 1)^2 + 101*(x3 - 1)^3 - 105*(x3 - 1)*(2*x2 + x3 - 1)^2)*(30*x1*(x2 + x3 - 1)^5 + 15*(x2 + x3 - 1)^6 - 70*(x2 + x3 - 1)^3*(2*x1 + x2 + x3 - 1)^3 + 63*(x2 + x3 - 1)*(2*x1 + x2 + x3 - 1)^5)/((x3 - 1)*(x2 + x3 - 1)) - 1/64*(304*x3 + 95*(2*x3 - 1)^2 - 93)*(308*x2*(x3 - 1)^2 + 101*(x3 - 1)^3 - 105*(x3 - 1)*(2*x2 + x3 - 1)^2)*(150*x1*(x2 + x3 - 1)^4 + 90*(x2 + x3 - 1)^5 - 210*(x2 + x3 - 1)^3*(2*x1 + x2 + x3 - 1)^2 - 210*(x2 + x3 - 1)^2*(2*x1 + x2 + x3 - 1)^3 + 315*(x2 + x3 - 1)*(2*x1 + x2 + x3 - 1)^4 + 63*(2*x1 + x2 + x3 - 1)^5)/((x3 - 1)*(x2 + x3 - 1)) - 1/64*(304*x3 + 95*(2*x3 - 1)^2 - 93)*(30*x1*(x2 + x3 - 1)^5 + 15*(x2 + x3 - 1)^6 - 70*(x2 + x3 - 1)^3*(2*x1 + x2 + x3 - 1)^3 + 63*(x2 + x3 - 1)*(2*x1 + x2 + x3 - 1)^5)*(308*x2*(2*x3 - 2) + 303*(x3 - 1)^2 - 105*(x3 - 1)*(4*x2 + 2*x3 - 2) - 105*(2*x2 + x3 - 1)^2)/((x3 - 1)*(x2 + x3 - 1)) + 1/64*(304*x3 + 95*(2*x3 - 1)^2 - 93)*(308*x2*(x3 - 1)^2 + 101*(x3 - 1)^3 - 105*(x3 - 1)*(2*x2 + x3 - 1)^2)*(30*x1*(x2 + x3 - 1)^5 + 15*(x2 + x3 - 1)^6 - 70*(x2 + x3 - 1)^3*(2*x1 + x2 + x3 - 1)^3 + 63*(x2 + x3 - 1)*(2*x1 + x2 + x3 - 1)^5)/((x3 - 1)*(x2 + x3 - 1)^2) + 1/64*(304*x3 + 95*(2*x3 - 1)^2 - 93)*(308*x2*(x3 - 1)^2 + 101*(x3 - 1)^3 - 105*(x3 - 1)*(2*x2 + x3 - 1)^2)*(30*x1*(x2 + x3 - 1)^5 + 15*(x2 + x3 - 1)^6 - 70*(x2 + x3 - 1)^3*(2*x1 + x2 + x3 - 1)^3 + 63*(x2 + x3 - 1)*(2*x1 + x2 + x3 - 1)^5)/((x3 - 1)^2*(x2 + x3 - 1));
  1/8*(20*x3 - 1)*(30*x1*(x2 + x3 - 1)^5 + 63*(-x2 - x3 + 1)*((-2)*x1 - x2 - x3 + 1)^5 + 15*(x2 + x3 - 1)^6 + 70*(x2 + x3 - 1)^3*((-2)*x1 - x2 - x3 + 1)^3)*(195*x2*(2*x3 - 2) + 243*(x3 - 1)^2 - 165*(x3 - 1)*(4*x2 + 2*x3 - 2) + 90*((-2)*x2 - x3 + 1)^2)/(x2 + x3 - 1) + 1/8*(20*x3 - 1)*(195*x2*(x3 - 1)^2 + 81*(x3 - 1)^3 - 165*(x3 - 1)*((-2)*x2 - x3 + 1)^2 - 85*((-2)*x2 - x3 + 1)^3)*(150*x1*(x2 + x3 - 1)^4 - 315*(-x2 - x3 + 1)*((-2)*x1 - x2 - x3 + 1)^4 + 90*(x2 + x3 - 1)^5 - 210*(x2 + x3 - 1)^3*((-2)*x1 - x2 - x3 + 1)^2 + 210*(x2 + x3 - 1)^2*((-2)*x1 - x2 - x3 + 1)^3 - 63*((-2)*x1 - x2 - x3 + 1)^5)/(x2 + x3 - 1) - 1/8*(20*x3 - 1)*(30*x1*(x2 + x3 - 1)^5 + 63*(-x2 - x3 + 1)*((-2)*x1 - x2 - x3 + 1)^5 + 15*(x2 + x3 - 1)^6 + 70*(x2 + x3 - 1)^3*((-2)*x1 - x2 - x3 + 1)^3)*(195*x2*(x3 - 1)^2 + 81*(x3 - 1)^3 - 165*(x3 - 1)*((-2)*x2 - x3 + 1)^2 - 85*((-2)*x2 - x3 + 1)^3)/(x2 + x3 - 1)^2 + 5/2*(30*x1*(x2 + x3 - 1)^5 + 63*(-x2 - x3 + 1)*((-2)*x1 - x2 - x3 + 1)^5 + 15*(x2 + x3 - 1)^6 + 70*(x2 + x3 - 1)^3*((-2)*x1 - x2 - x3 + 1)^3)*(195*x2*(x3 - 1)^2 + 81*(x3 - 1)^3 - 165*(x3 - 1)*((-2)*x2 - x3 + 1)^2 - 85*((-2)*x2 - x3 + 1)^3)/(x2 + x3 - 1);
  1/32*(30*x1*(x2 + x3 - 1)^5 + 63*(-x2 - x3 + 1)*((-2)*x1 - x2 - x3 + 1)^5 + 15*(x2 + x3 - 1)^6 + 70*(x2 + x3 - 1)^3*((-2)*x1 - x2 - x3 + 1)^3)*((-2904)*x2*(x3 - 1)^2 - 1820*(x3 - 1)^3 + 1734*(x3 - 1)^2*(4*x2 + 2*x3 - 2) - 6732*(x3 - 1)*(2*x2 + x3 - 1)^2 + 1734*(2*x3 - 2)*(2*x2 + x3 - 1)^2 + 1632*(2*x2 + x3 - 1)^3)/(x2 + x3 - 1) + 1/32*((-968)*x2*(x3 - 1)^3 - 455*(x3 - 1)^4 + 1734*(x3 - 1)^2*(2*x2 + x3 - 1)^2 - 2244*(x3 - 1)*(2*x2 + x3 - 1)^3 + 969*(2*x2 + x3 - 1)^4)*(150*x1*(x2 + x3 - 1)^4 - 315*(-x2 - x3 + 1)*((-2)*x1 - x2 - x3 + 1)^4 + 90*(x2 + x3 - 1)^5 - 210*(x2 + x3 - 1)^3*((-2)*x1 - x2 - x3 + 1)^2 + 210*(x2 + x3 - 1)^2*((-2)*x1 - x2 - x3 + 1)^3 - 63*((-2)*x1 - x2 - x3 + 1)^5)/(x2 + x3 - 1) - 1/32*(30*x1*(x2 + x3 - 1)^5 + 63*(-x2 - x3 + 1)*((-2)*x1 - x2 - x3 + 1)^5 + 15*(x2 + x3 - 1)^6 + 70*(x2 + x3 - 1)^3*((-2)*x1 - x2 - x3 + 1)^3)*((-968)*x2*(x3 - 1)^3 - 455*(x3 - 1)^4 + 1734*(x3 - 1)^2*(2*x2 + x3 - 1)^2 - 2244*(x3 - 1)*(2*x2 + x3 - 1)^3 + 969*(2*x2 + x3 - 1)^4)/(x2 + x3 - 1)^2;
  1/64*(9576*x3 + 3420*(2*x3 - 1)^2 - 3204)*((-5)*(x2 + x3 - 1)^6 + 105*(x2 + x3 - 1)^4*(2*x1 + x2 + x3 - 1)^2 - 315*(x2 + x3 - 1)^2*(2*x1 + x2 + x3 - 1)^4 + 231*(2*x1 + x2 + x3 - 1)^6) + 1/64*(1584*x3 + 570*(2*x3 - 1)^3 + 1197*(2*x3 - 1)^2 - 631)*((-30)*(x2 + x3 - 1)^5 + 105*(x2 + x3 - 1)^4*(4*x1 + 2*x2 + 2*x3 - 2) + 420*(x2 + x3 - 1)^3*(2*x1 + x2 + x3 - 1)^2 - 1260*(x2 + x3 - 1)^2*(2*x1 + x2 + x3 - 1)^3 - 315*(2*x2 + 2*x3 - 2)*(2*x1 + x2 + x3 - 1)^4 + 1386*(2*x1 + x2 + x3 - 1)^5);
  1/32*(760*x3 - 76)*(15*x2 + x3 - 1)*((-5)*(x2 + x3 - 1)^6 + 105*(x2 + x3 - 1)^4*(2*x1 + x2 + x3 - 1)^2 - 315*(x2 + x3 - 1)^2*(2*x1 + x2 + x3 - 1)^4 + 231*(2*x1 + x2 + x3 - 1)^6) + 1/32*(15*x2 + x3 - 1)*(304*x3 + 95*(2*x3 - 1)^2 - 93)*((-30)*(x2 + x3 - 1)^5 + 105*(x2 + x3 - 1)^4*(4*x1 + 2*x2 + 2*x3 - 2) + 420*(x2 + x3 - 1)^3*(2*x1 + x2 + x3 - 1)^2 - 1260*(x2 + x3 - 1)^2*(2*x1 + x2 + x3 - 1)^3 - 315*(2*x2 + 2*x3 - 2)*(2*x1 + x2 + x3 - 1)^4 + 1386*(2*x1 + x2 + x3 - 1)^5) + 1/32*(304*x3 + 95*(2*x3 - 1)^2 - 93)*((-5)*(x2 + x3 - 1)^6 + 105*(x2 + x3 - 1)^4*(2*x1 + x2 + x3 - 1)^2 - 315*(x2 + x3 - 1)^2*(2*x1 + x2 + x3 - 1)^4 + 231*(2*x1 + x2 + x3 - 1)^6);
  (20*x3 - 1)*(104*x2*(x3 - 1)^2 + 33*(x3 - 1)^3 - 34*(x3 - 1)*(2*x2 + x3 - 1)^2)*(30*(x2 + x3 - 1)^5 - 105*(x2 + x3 - 1)^4*(4*x1 + 2*x2 + 2*x3 - 2) - 420*(x2 + x3 - 1)^3*(2*x1 + x2 + x3 - 1)^2 + 1260*(x2 + x3 - 1)^2*(2*x1 + x2 + x3 - 1)^3 + 315*(2*x2 + 2*x3 - 2)*(2*x1 + x2 + x3 - 1)^4 - 1386*(2*x1 + x2 + x3 - 1)^5)/(16*x3 - 16) + (20*x3 - 1)*(104*x2*(2*x3 - 2) + 99*(x3 - 1)^2 - 34*(x3 - 1)*(4*x2 + 2*x3 - 2) - 34*(2*x2 + x3 - 1)^2)*(5*(x2 + x3 - 1)^6 - 105*(x2 + x3 - 1)^4*(2*x1 + x2 + x3 - 1)^2 + 315*(x2 + x3 - 1)^2*(2*x1 + x2 + x3 - 1)^4 - 231*(2*x1 + x2 + x3 - 1)^6)/(16*x3 - 16) + 20*(104*x2*(x3 - 1)^2 + 33*(x3 - 1)^3 - 34*(x3 - 1)*(2*x2 + x3 - 1)^2)*(5*(x2 + x3 - 1)^6 - 105*(x2 + x3 - 1)^4*(2*x1 + x2 + x3 - 1)^2 + 315*(x2 + x3 - 1)^2*(2*x1 + x2 + x3 - 1)^4 - 231*(2*x1 + x2 + x3 - 1)^6)/(16*x3 - 16) - 16*(20*x3 - 1)*(104*x2*(x3 - 1)^2 + 33*(x3 - 1)^3 - 34*(x3 - 1)*(2*x2 + x3 - 1)^2)*(5*(x2 + x3 - 1)^6 - 105*(x2 + x3 - 1)^4*(2*x1 + x2 + x3 - 1)^2 + 315*(x2 + x3 - 1)^2*(2*x1 + x2 + x3 - 1)^4 - 231*(2*x1 + x2 + x3 - 1)^6)/(16*x3 - 16)^2;
  1/128*(2550*x2*(x3 - 1)^3 - 1989*(-x3 + 1)^2*((-2)*x2 - x3 + 1)^2 + 969*(-x3 + 1)*((-2)*x2 - x3 + 1)^3 + 1028*(x3 - 1)^4)*((-30)*(x2 + x3 - 1)^5 + 105*(x2 + x3 - 1)^4*(4*x1 + 2*x2 + 2*x3 - 2) + 420*(x2 + x3 - 1)^3*(2*x1 + x2 + x3 - 1)^2 - 1260*(x2 + x3 - 1)^2*(2*x1 + x2 + x3 - 1)^3 - 315*(2*x2 + 2*x3 - 2)*(2*x1 + x2 + x3 - 1)^4 + 1386*(2*x1 + x2 + x3 - 1)^5)/(x3 - 1) + 1/128*((-5)*(x2 + x3 - 1)^6 + 105*(x2 + x3 - 1)^4*(2*x1 + x2 + x3 - 1)^2 - 315*(x2 + x3 - 1)^2*(2*x1 + x2 + x3 - 1)^4 + 231*(2*x1 + x2 + x3 - 1)^6)*(7650*x2*(x3 - 1)^2 - 1989*(-x3 + 1)^2*(4*x2 + 2*x3 - 2) - 2907*(-x3 + 1)*((-2)*x2 - x3 + 1)^2 + 4112*(x3 - 1)^3 - 1989*(2*x3 - 2)*((-2)*x2 - x3 + 1)^2 - 969*((-2)*x2 - x3 + 1)^3)/(x3 - 1) - 1/128*(2550*x2*(x3 - 1)^3 - 1989*(-x3 + 1)^2*((-2)*x2 - x3 + 1)^2 + 969*(-x3 + 1)*((-2)*x2 - x3 + 1)^3 + 1028*(x3 - 1)^4)*((-5)*(x2 + x3 - 1)^6 + 105*(x2 + x3 - 1)^4*(2*x1 + x2 + x3 - 1)^2 - 315*(x2 + x3 - 1)^2*(2*x1 + x2 + x3 - 1)^4 + 231*(2*x1 + x2 + x3 - 1)^6)/(x3 - 1)^2;
  (-(760*x3 - 76))*(70*x1*(x2 + x3 - 1)^7 + 35*(x2 + x3 - 1)^8 - 315*(x2 + x3 - 1)^5*(2*x1 + x2 + x3 - 1)^3 + 693*(x2 + x3 - 1)^3*(2*x1 + x2 + x3 - 1)^5 - 429*(x2 + x3 - 1)*(2*x1 + x2 + x3 - 1)^7)/(32*x2 + 32*x3 - 32) - (304*x3 + 95*(2*x3 - 1)^2 - 93)*(490*x1*(x2 + x3 - 1)^6 + 280*(x2 + x3 - 1)^7 - 945*(x2 + x3 - 1)^5*(2*x1 + x2 + x3 - 1)^2 - 1575*(x2 + x3 - 1)^4*(2*x1 + x2 + x3 - 1)^3 + 3465*(x2 + x3 - 1)^3*(2*x1 + x2 + x3 - 1)^4 + 2079*(x2 + x3 - 1)^2*(2*x1 + x2 + x3 - 1)^5 - 3003*(x2 + x3 - 1)*(2*x1 + x2 + x3 - 1)^6 - 429*(2*x1 + x2 + x3 - 1)^7)/(32*x2 + 32*x3 - 32) + 32*(304*x3 + 95*(2*x3 - 1)^2 - 93)*(70*x1*(x2 + x3 - 1)^7 + 35*(x2 + x3 - 1)^8 - 315*(x2 + x3 - 1)^5*(2*x1 + x2 + x3 - 1)^3 + 693*(x2 + x3 - 1)^3*(2*x1 + x2 + x3 - 1)^5 - 429*(x2 + x3 - 1)*(2*x1 + x2 + x3 - 1)^7)/(32*x2 + 32*x3 - 32)^2;
  (-(20*x3 - 1))*(17*x2 + x3 - 1)*(490*x1*(x2 + x3 - 1)^6 + 280*(x2 + x3 - 1)^7 - 945*(x2 + x3 - 1)^5*(2*x1 + x2 + x3 - 1)^2 - 1575*(x2 + x3 - 1)^4*(2*x1 + x2 + x3 - 1)^3 + 3465*(x2 + x3 - 1)^3*(2*x1 + x2 + x3 - 1)^4 + 2079*(x2 + x3 - 1)^2*(2*x1 + x2 + x3 - 1)^5 - 3003*(x2 + x3 - 1)*(2*x1 + x2 + x3 - 1)^6 - 429*(2*x1 + x2 + x3 - 1)^7)/(16*x2 + 16*x3 - 16) - (20*x3 - 1)*(70*x1*(x2 + x3 - 1)^7 + 35*(x2 + x3 - 1)^8 - 315*(x2 + x3 - 1)^5*(2*x1 + x2 + x3 - 1)^3 + 693*(x2 + x3 - 1)^3*(2*x1 + x2 + x3 - 1)^5 - 429*(x2 + x3 - 1)*(2*x1 + x2 + x3 - 1)^7)/(16*x2 + 16*x3 - 16) + 16*(20*x3 - 1)*(17*x2 + x3 - 1)*(70*x1*(x2 + x3 - 1)^7 + 35*(x2 + x3 - 1)^8 - 315*(x2 + x3 - 1)^5*(2*x1 + x2 + x3 - 1)^3 + 693*(x2 + x3 - 1)^3*(2*x1 + x2 + x3 - 1)^5 - 429*(x2 + x3 - 1)*(2*x1 + x2 + x3 - 1)^7)/(16*x2 + 16*x3 - 16)^2 - 20*(17*x2 + x3 - 1)*(70*x1*(x2 + x3 - 1)^7 + 35*(x2 + x3 - 1)^8 - 315*(x2 + x3 - 1)^5*(2*x1 + x2 + x3 - 1)^3 + 693*(x2 + x3 - 1)^3*(2*x1 + x2 + x3 - 1)^5 - 429*(x2 + x3 - 1)*(2*x1 + x2 + x3 - 1)^7)/(16*x2 + 16*x3 - 16);
  1/64*(540*x2*(x3 - 1)^2 + 171*(-x3 + 1)*((-2)*x2 - x3 + 1)^2 + 167*(x3 - 1)^3)*(490*x1*(x2 + x3 - 1)^6 + 945*(-x2 - x3 + 1)^5*(2*x1 + x2 + x3 - 1)^2 - 1575*(-x2 - x3 + 1)^4*(2*x1 + x2 + x3 - 1)^3 + 3003*(-x2 - x3 + 1)*(2*x1 + x2 + x3 - 1)^6 + 280*(x2 + x3 - 1)^7 + 3465*(x2 + x3 - 1)^3*(2*x1 + x2 + x3 - 1)^4 + 2079*(x2 + x3 - 1)^2*(2*x1 + x2 + x3 - 1)^5 - 429*(2*x1 + x2 + x3 - 1)^7)/((x3 - 1)*(x2 + x3 - 1)) + 1/64*(540*x2*(2*x3 - 2) + 171*(-x3 + 1)*(4*x2 + 2*x3 - 2) + 501*(x3 - 1)^2 - 171*((-2)*x2 - x3 + 1)^2)*(70*x1*(x2 + x3 - 1)^7 + 315*(-x2 - x3 + 1)^5*(2*x1 + x2 + x3 - 1)^3 + 429*(-x2 - x3 + 1)*(2*x1 + x2 + x3 - 1)^7 + 35*(x2 + x3 - 1)^8 + 693*(x2 + x3 - 1)^3*(2*x1 + x2 + x3 - 1)^5)/((x3 - 1)*(x2 + x3 - 1)) - 1/64*(540*x2*(x3 - 1)^2 + 171*(-x3 + 1)*((-2)*x2 - x3 + 1)^2 + 167*(x3 - 1)^3)*(70*x1*(x2 + x3 - 1)^7 + 315*(-x2 - x3 + 1)^5*(2*x1 + x2 + x3 - 1)^3 + 429*(-x2 - x3 + 1)*(2*x1 + x2 + x3 - 1)^7 + 35*(x2 + x3 - 1)^8 + 693*(x2 + x3 - 1)^3*(2*x1 + x2 + x3 - 1)^5)/((x3 - 1)*(x2 + x3 - 1)^2) - 1/64*(540*x2*(x3 - 1)^2 + 171*(-x3 + 1)*((-2)*x2 - x3 + 1)^2 + 167*(x3 - 1)^3)*(70*x1*(x2 + x3 - 1)^7 + 315*(-x2 - x3 + 1)^5*(2*x1 + x2 + x3 - 1)^3 + 429*(-x2 - x3 + 1)*(2*x1 + x2 + x3 - 1)^7 + 35*(x2 + x3 - 1)^8 + 693*(x2 + x3 - 1)^3*(2*x1 + x2 + x3 - 1)^5)/((x3 - 1)^2*(x2 + x3 - 1));
  1/128*(20*x3 - 1)*(280*(x2 + x3 - 1)^7 - 1260*(x2 + x3 - 1)^6*(4*x1 + 2*x2 + 2*x3 - 2) - 7560*(x2 + x3 - 1)^5*(2*x1 + x2 + x3 - 1)^2 + 27720*(x2 + x3 - 1)^4*(2*x1 + x2 + x3 - 1)^3 + 27720*(x2 + x3 - 1)^3*(2*x1 + x2 + x3 - 1)^4 - 72072*(x2 + x3 - 1)^2*(2*x1 + x2 + x3 - 1)^5 - 12012*(2*x2 + 2*x3 - 2)*(2*x1 + x2 + x3 - 1)^6 + 51480*(2*x1 + x2 + x3 - 1)^7) + 175/32*(x2 + x3 - 1)^8 - 1575/8*(x2 + x3 - 1)^6*(2*x1 + x2 + x3 - 1)^2 + 17325/16*(x2 + x3 - 1)^4*(2*x1 + x2 + x3 - 1)^4 - 15015/8*(x2 + x3 - 1)^2*(2*x1 + x2 + x3 - 1)^6 + 32175/32*(2*x1 + x2 + x3 - 1)^8;
  35/128*(x2 + x3 - 1)^8 - 315/32*(x2 + x3 - 1)^6*(2*x1 + x2 + x3 - 1)^2 + 3465/64*(x2 + x3 - 1)^4*(2*x1 + x2 + x3 - 1)^4 - 3003/32*(x2 + x3 - 1)^2*(2*x1 + x2 + x3 - 1)^6 + 1/128*(19*x2 + x3 - 1)*(280*(x2 + x3 - 1)^7 - 1260*(x2 + x3 - 1)^6*(4*x1 + 2*x2 + 2*x3 - 2) - 7560*(x2 + x3 - 1)^5*(2*x1 + x2 + x3 - 1)^2 + 27720*(x2 + x3 - 1)^4*(2*x1 + x2 + x3 - 1)^3 + 27720*(x2 + x3 - 1)^3*(2*x1 + x2 + x3 - 1)^4 - 72072*(x2 + x3 - 1)^2*(2*x1 + x2 + x3 - 1)^5 - 12012*(2*x2 + 2*x3 - 2)*(2*x1 + x2 + x3 - 1)^6 + 51480*(2*x1 + x2 + x3 - 1)^7) + 6435/128*(2*x1 + x2 + x3 - 1)^8;
  1/128*(5670*x1*(x2 + x3 - 1)^8 - 90090*(-x2 - x3 + 1)^5*((-2)*x1 - x2 - x3 + 1)^4 - 90090*(-x2 - x3 + 1)^4*((-2)*x1 - x2 - x3 + 1)^5 - 109395*(-x2 - x3 + 1)*((-2)*x1 - x2 - x3 + 1)^8 + 3150*(x2 + x3 - 1)^9 - 13860*(x2 + x3 - 1)^7*((-2)*x1 - x2 - x3 + 1)^2 + 32340*(x2 + x3 - 1)^6*((-2)*x1 - x2 - x3 + 1)^3 - 180180*(x2 + x3 - 1)^3*((-2)*x1 - x2 - x3 + 1)^6 + 77220*(x2 + x3 - 1)^2*((-2)*x1 - x2 - x3 + 1)^7 - 12155*((-2)*x1 - x2 - x3 + 1)^9)/(x2 + x3 - 1) - 1/128*(630*x1*(x2 + x3 - 1)^9 + 18018*(-x2 - x3 + 1)^5*((-2)*x1 - x2 - x3 + 1)^5 + 12155*(-x2 - x3 + 1)*((-2)*x1 - x2 - x3 + 1)^9 + 315*(x2 + x3 - 1)^10 + 4620*(x2 + x3 - 1)^7*((-2)*x1 - x2 - x3 + 1)^3 + 25740*(x2 + x3 - 1)^3*((-2)*x1 - x2 - x3 + 1)^7)/(x2 + x3 - 1)^2;
  6466460*x3^9 - 26453700*x3^8 + 45349200*x3^7 - 42325920*x3^6 + 23390640*x3^5 - 7796880*x3^4 + 1528800*x3^3 - 163800*x3^2 + 8190*x3 - 130;
  (-1197)/64*x3 + 124355/128*(2*x3 - 1)^9 + 101745/64*(2*x3 - 1)^8 - 14535/32*(2*x3 - 1)^7 - 6783/4*(2*x3 - 1)^6 - 18207/64*(2*x3 - 1)^5 + 16065/32*(2*x3 - 1)^4 + 4305/32*(2*x3 - 1)^3 - 315/8*(2*x3 - 1)^2 - 1/128*(3*x2 + x3 - 1)*(40320*x3 - 2238390*(2*x3 - 1)^8 - 3255840*(2*x3 - 1)^7 + 813960*(2*x3 - 1)^6 + 2604672*(2*x3 - 1)^5 + 364140*(2*x3 - 1)^4 - 514080*(2*x3 - 1)^3 - 103320*(2*x3 - 1)^2 - 17766) + 1239/128;
  (-(4*x2*(x3 - 1)^2 + 3*(x3 - 1)^3 - 5*(x3 - 1)*(2*x2 + x3 - 1)^2))*(117600*x3 + 2558160*(2*x3 - 1)^7 + 4883760*(2*x3 - 1)^6 + 1627920*(2*x3 - 1)^5 - 1627920*(2*x3 - 1)^4 - 942480*(2*x3 - 1)^3 + 28560*(2*x3 - 1)^2 - 56160)/(256*x3 - 256) - (4*x2*(2*x3 - 2) + 9*(x3 - 1)^2 - 5*(x3 - 1)*(4*x2 + 2*x3 - 2) - 5*(2*x2 + x3 - 1)^2)*(2640*x3 + 159885*(2*x3 - 1)^8 + 348840*(2*x3 - 1)^7 + 135660*(2*x3 - 1)^6 - 162792*(2*x3 - 1)^5 - 117810*(2*x3 - 1)^4 + 4760*(2*x3 - 1)^3 + 14700*(2*x3 - 1)^2 - 1499)/(256*x3 - 256) + 256*(4*x2*(x3 - 1)^2 + 3*(x3 - 1)^3 - 5*(x3 - 1)*(2*x2 + x3 - 1)^2)*(2640*x3 + 159885*(2*x3 - 1)^8 + 348840*(2*x3 - 1)^7 + 135660*(2*x3 - 1)^6 - 162792*(2*x3 - 1)^5 - 117810*(2*x3 - 1)^4 + 4760*(2*x3 - 1)^3 + 14700*(2*x3 - 1)^2 - 1499)/(256*x3 - 256)^2;
  (-(30*x2*(x3 - 1)^3 + 12*(x3 - 1)^4 + 15*(x3 - 1)^2*(2*x2 + x3 - 1)^2 - 35*(x3 - 1)*(2*x2 + x3 - 1)^3))*((-11424)*x3 + 149226*(2*x3 - 1)^6 + 325584*(2*x3 - 1)^5 + 203490*(2*x3 - 1)^4 - 32130*(2*x3 - 1)^2 + 5894)/(64*x3 - 64) - (90*x2*(x3 - 1)^2 + 48*(x3 - 1)^3 + 15*(x3 - 1)^2*(4*x2 + 2*x3 - 2) - 105*(x3 - 1)*(2*x2 + x3 - 1)^2 + 15*(2*x3 - 2)*(2*x2 + x3 - 1)^2 - 35*(2*x2 + x3 - 1)^3)*(182*x3 + 10659*(2*x3 - 1)^7 + 27132*(2*x3 - 1)^6 + 20349*(2*x3 - 1)^5 - 5355*(2*x3 - 1)^3 - 1428*(2*x3 - 1)^2 - 59)/(64*x3 - 64) + 64*(30*x2*(x3 - 1)^3 + 12*(x3 - 1)^4 + 15*(x3 - 1)^2*(2*x2 + x3 - 1)^2 - 35*(x3 - 1)*(2*x2 + x3 - 1)^3)*(182*x3 + 10659*(2*x3 - 1)^7 + 27132*(2*x3 - 1)^6 + 20349*(2*x3 - 1)^5 - 5355*(2*x3 - 1)^3 - 1428*(2*x3 - 1)^2 - 59)/(64*x3 - 64)^2;
  1/512*(24*x2*(x3 - 1)^3 + 15*(x3 - 1)^4 - 42*(x3 - 1)^2*(2*x2 + x3 - 1)^2 - 28*(x3 - 1)*(2*x2 + x3 - 1)^3 + 63*(2*x2 + x3 - 1)^4)*((-55080)*x3 + 895356*(2*x3 - 1)^5 + 2034900*(2*x3 - 1)^4 + 1511640*(2*x3 - 1)^3 + 348840*(2*x3 - 1)^2 + 16728) + 1/512*(72*x2*(x3 - 1)^2 + 60*(x3 - 1)^3 - 42*(x3 - 1)^2*(4*x2 + 2*x3 - 2) - 84*(x3 - 1)*(2*x2 + x3 - 1)^2 - 42*(2*x3 - 2)*(2*x2 + x3 - 1)^2 + 224*(2*x2 + x3 - 1)^3)*((-10812)*x3 + 74613*(2*x3 - 1)^6 + 203490*(2*x3 - 1)^5 + 188955*(2*x3 - 1)^4 + 58140*(2*x3 - 1)^3 - 6885*(2*x3 - 1)^2 + 5011);
  1/256*(109440*x3 + 131670*(2*x3 - 1)^4 + 287280*(2*x3 - 1)^3 + 208620*(2*x3 - 1)^2 - 51570)*(70*x2*(x3 - 1)^5 - 105*(-x3 + 1)^2*((-2)*x2 - x3 + 1)^4 + 231*(-x3 + 1)*((-2)*x2 - x3 + 1)^5 + 30*(x3 - 1)^6 + 70*(x3 - 1)^4*((-2)*x2 - x3 + 1)^2 + 210*(x3 - 1)^3*((-2)*x2 - x3 + 1)^3)/(x3 - 1) + 1/256*(3150*x3 + 13167*(2*x3 - 1)^5 + 35910*(2*x3 - 1)^4 + 34770*(2*x3 - 1)^3 + 13680*(2*x3 - 1)^2 - 1669)*(350*x2*(x3 - 1)^4 + 420*(-x3 + 1)^2*((-2)*x2 - x3 + 1)^3 - 1155*(-x3 + 1)*((-2)*x2 - x3 + 1)^4 + 180*(x3 - 1)^5 + 70*(x3 - 1)^4*(4*x2 + 2*x3 - 2) - 350*(x3 - 1)^3*((-2)*x2 - x3 + 1)^2 + 630*(x3 - 1)^2*((-2)*x2 - x3 + 1)^3 - 105*(2*x3 - 2)*((-2)*x2 - x3 + 1)^4 - 231*((-2)*x2 - x3 + 1)^5)/(x3 - 1) - 1/256*(3150*x3 + 13167*(2*x3 - 1)^5 + 35910*(2*x3 - 1)^4 + 34770*(2*x3 - 1)^3 + 13680*(2*x3 - 1)^2 - 1669)*(70*x2*(x3 - 1)^5 - 105*(-x3 + 1)^2*((-2)*x2 - x3 + 1)^4 + 231*(-x3 + 1)*((-2)*x2 - x3 + 1)^5 + 30*(x3 - 1)^6 + 70*(x3 - 1)^4*((-2)*x2 - x3 + 1)^2 + 210*(x3 - 1)^3*((-2)*x2 - x3 + 1)^3)/(x3 - 1)^2;
  (-(132240*x3 + 58520*(2*x3 - 1)^3 + 111720*(2*x3 - 1)^2 - 54416))*(60*x2*(x3 - 1)^6 + 35*(x3 - 1)^7 - 135*(x3 - 1)^5*(2*x2 + x3 - 1)^2 - 180*(x3 - 1)^4*(2*x2 + x3 - 1)^3 + 495*(x3 - 1)^3*(2*x2 + x3 - 1)^4 + 198*(x3 - 1)^2*(2*x2 + x3 - 1)^5 - 429*(x3 - 1)*(2*x2 + x3 - 1)^6)/(256*x3 - 256) - (11704*x3 + 7315*(2*x3 - 1)^4 + 18620*(2*x3 - 1)^3 + 16530*(2*x3 - 1)^2 - 5209)*(360*x2*(x3 - 1)^5 + 245*(x3 - 1)^6 - 135*(x3 - 1)^5*(4*x2 + 2*x3 - 2) - 1215*(x3 - 1)^4*(2*x2 + x3 - 1)^2 + 1260*(x3 - 1)^3*(2*x2 + x3 - 1)^3 + 2475*(x3 - 1)^2*(2*x2 + x3 - 1)^4 - 2574*(x3 - 1)*(2*x2 + x3 - 1)^5 + 198*(2*x3 - 2)*(2*x2 + x3 - 1)^5 - 429*(2*x2 + x3 - 1)^6)/(256*x3 - 256) + 256*(11704*x3 + 7315*(2*x3 - 1)^4 + 18620*(2*x3 - 1)^3 + 16530*(2*x3 - 1)^2 - 5209)*(60*x2*(x3 - 1)^6 + 35*(x3 - 1)^7 - 135*(x3 - 1)^5*(2*x2 + x3 - 1)^2 - 180*(x3 - 1)^4*(2*x2 + x3 - 1)^3 + 495*(x3 - 1)^3*(2*x2 + x3 - 1)^4 + 198*(x3 - 1)^2*(2*x2 + x3 - 1)^5 - 429*(x3 - 1)*(2*x2 + x3 - 1)^6)/(256*x3 - 256)^2;
  (-(6720*x3 + 2310*(2*x3 - 1)^2 - 2190))*(630*x2*(x3 - 1)^7 + 280*(x3 - 1)^8 + 945*(x3 - 1)^6*(2*x2 + x3 - 1)^2 - 3465*(x3 - 1)^5*(2*x2 + x3 - 1)^3 - 3465*(x3 - 1)^4*(2*x2 + x3 - 1)^4 + 9009*(x3 - 1)^3*(2*x2 + x3 - 1)^5 + 3003*(x3 - 1)^2*(2*x2 + x3 - 1)^6 - 6435*(x3 - 1)*(2*x2 + x3 - 1)^7)/(256*x3 - 256) - (1170*x3 + 385*(2*x3 - 1)^3 + 840*(2*x3 - 1)^2 - 457)*(4410*x2*(x3 - 1)^6 + 2240*(x3 - 1)^7 + 945*(x3 - 1)^6*(4*x2 + 2*x3 - 2) - 4725*(x3 - 1)^5*(2*x2 + x3 - 1)^2 - 31185*(x3 - 1)^4*(2*x2 + x3 - 1)^3 + 31185*(x3 - 1)^3*(2*x2 + x3 - 1)^4 + 45045*(x3 - 1)^2*(2*x2 + x3 - 1)^5 - 45045*(x3 - 1)*(2*x2 + x3 - 1)^6 + 3003*(2*x3 - 2)*(2*x2 + x3 - 1)^6 - 6435*(2*x2 + x3 - 1)^7)/(256*x3 - 256) + 256*(1170*x3 + 385*(2*x3 - 1)^3 + 840*(2*x3 - 1)^2 - 457)*(630*x2*(x3 - 1)^7 + 280*(x3 - 1)^8 + 945*(x3 - 1)^6*(2*x2 + x3 - 1)^2 - 3465*(x3 - 1)^5*(2*x2 + x3 - 1)^3 - 3465*(x3 - 1)^4*(2*x2 + x3 - 1)^4 + 9009*(x3 - 1)^3*(2*x2 + x3 - 1)^5 + 3003*(x3 - 1)^2*(2*x2 + x3 - 1)^6 - 6435*(x3 - 1)*(2*x2 + x3 - 1)^7)/(256*x3 - 256)^2;
  1/512*(1848*x3 - 168)*(560*x2*(x3 - 1)^7 - 1540*(-x3 + 1)^6*(2*x2 + x3 - 1)^2 + 3080*(-x3 + 1)^5*(2*x2 + x3 - 1)^3 - 20020*(-x3 + 1)^2*(2*x2 + x3 - 1)^6 + 5720*(-x3 + 1)*(2*x2 + x3 - 1)^7 + 315*(x3 - 1)^8 + 10010*(x3 - 1)^4*(2*x2 + x3 - 1)^4 + 8008*(x3 - 1)^3*(2*x2 + x3 - 1)^5 + 12155*(2*x2 + x3 - 1)^8) + 1/512*(756*x3 + 231*(2*x3 - 1)^2 - 227)*(3920*x2*(x3 - 1)^6 - 1540*(-x3 + 1)^6*(4*x2 + 2*x3 - 2) + 18480*(-x3 + 1)^5*(2*x2 + x3 - 1)^2 - 15400*(-x3 + 1)^4*(2*x2 + x3 - 1)^3 - 120120*(-x3 + 1)^2*(2*x2 + x3 - 1)^5 + 40040*(-x3 + 1)*(2*x2 + x3 - 1)^6 + 2520*(x3 - 1)^7 + 40040*(x3 - 1)^4*(2*x2 + x3 - 1)^3 + 80080*(x3 - 1)^3*(2*x2 + x3 - 1)^4 + 24024*(x3 - 1)^2*(2*x2 + x3 - 1)^5 - 20020*(2*x3 - 2)*(2*x2 + x3 - 1)^6 + 91520*(2*x2 + x3 - 1)^7);
  1/256*(22*x3 - 1)*(12474*x2*(x3 - 1)^8 + 72072*(-x3 + 1)^6*((-2)*x2 - x3 + 1)^3 - 162162*(-x3 + 1)^5*((-2)*x2 - x3 + 1)^4 - 270270*(-x3 + 1)^4*((-2)*x2 - x3 + 1)^5 + 175032*(-x3 + 1)^2*((-2)*x2 - x3 + 1)^7 - 415701*(-x3 + 1)*((-2)*x2 - x3 + 1)^8 + 6300*(x3 - 1)^9 + 2772*(x3 - 1)^8*(4*x2 + 2*x3 - 2) - 13860*(x3 - 1)^7*((-2)*x2 - x3 + 1)^2 + 84084*(x3 - 1)^6*((-2)*x2 - x3 + 1)^3 - 216216*(x3 - 1)^4*((-2)*x2 - x3 + 1)^5 - 468468*(x3 - 1)^3*((-2)*x2 - x3 + 1)^6 + 262548*(x3 - 1)^2*((-2)*x2 - x3 + 1)^7 - 21879*(2*x3 - 2)*((-2)*x2 - x3 + 1)^8 - 46189*((-2)*x2 - x3 + 1)^9)/(x3 - 1) + 11/128*(1386*x2*(x3 - 1)^9 - 18018*(-x3 + 1)^6*((-2)*x2 - x3 + 1)^4 + 54054*(-x3 + 1)^5*((-2)*x2 - x3 + 1)^5 - 21879*(-x3 + 1)^2*((-2)*x2 - x3 + 1)^8 + 46189*(-x3 + 1)*((-2)*x2 - x3 + 1)^9 + 630*(x3 - 1)^10 + 2772*(x3 - 1)^8*((-2)*x2 - x3 + 1)^2 + 12012*(x3 - 1)^7*((-2)*x2 - x3 + 1)^3 + 36036*(x3 - 1)^4*((-2)*x2 - x3 + 1)^6 + 87516*(x3 - 1)^3*((-2)*x2 - x3 + 1)^7)/(x3 - 1) - 1/256*(22*x3 - 1)*(1386*x2*(x3 - 1)^9 - 18018*(-x3 + 1)^6*((-2)*x2 - x3 + 1)^4 + 54054*(-x3 + 1)^5*((-2)*x2 - x3 + 1)^5 - 21879*(-x3 + 1)^2*((-2)*x2 - x3 + 1)^8 + 46189*(-x3 + 1)*((-2)*x2 - x3 + 1)^9 + 630*(x3 - 1)^10 + 2772*(x3 - 1)^8*((-2)*x2 - x3 + 1)^2 + 12012*(x3 - 1)^7*((-2)*x2 - x3 + 1)^3 + 36036*(x3 - 1)^4*((-2)*x2 - x3 + 1)^6 + 87516*(x3 - 1)^3*((-2)*x2 - x3 + 1)^7)/(x3 - 1)^2;
  1/256*((-12600)*x2*(x3 - 1)^9 - 4095*(-x3 + 1)^9*(4*x2 + 2*x3 - 2) + 36855*(-x3 + 1)^8*((-2)*x2 - x3 + 1)^2 - 245700*(-x3 + 1)^6*((-2)*x2 - x3 + 1)^4 + 540540*(-x3 + 1)^5*((-2)*x2 - x3 + 1)^5 + 696150*(-x3 + 1)^4*((-2)*x2 - x3 + 1)^6 - 377910*(-x3 + 1)^2*((-2)*x2 - x3 + 1)^8 + 881790*(-x3 + 1)*((-2)*x2 - x3 + 1)^9 - 7623*(x3 - 1)^10 + 32760*(x3 - 1)^8*((-2)*x2 - x3 + 1)^2 + 76440*(x3 - 1)^7*((-2)*x2 - x3 + 1)^3 - 286650*(x3 - 1)^6*((-2)*x2 - x3 + 1)^4 + 556920*(x3 - 1)^4*((-2)*x2 - x3 + 1)^6 + 1193400*(x3 - 1)^3*((-2)*x2 - x3 + 1)^7 - 566865*(x3 - 1)^2*((-2)*x2 - x3 + 1)^8 + 41990*(2*x3 - 2)*((-2)*x2 - x3 + 1)^9 + 88179*((-2)*x2 - x3 + 1)^10)/(x3 - 1) - 1/256*((-1260)*x2*(x3 - 1)^10 - 4095*(-x3 + 1)^9*((-2)*x2 - x3 + 1)^2 + 49140*(-x3 + 1)^6*((-2)*x2 - x3 + 1)^5 - 139230*(-x3 + 1)^5*((-2)*x2 - x3 + 1)^6 + 41990*(-x3 + 1)^2*((-2)*x2 - x3 + 1)^9 - 88179*(-x3 + 1)*((-2)*x2 - x3 + 1)^10 - 693*(x3 - 1)^11 - 10920*(x3 - 1)^8*((-2)*x2 - x3 + 1)^3 - 40950*(x3 - 1)^7*((-2)*x2 - x3 + 1)^4 - 79560*(x3 - 1)^4*((-2)*x2 - x3 + 1)^7 - 188955*(x3 - 1)^3*((-2)*x2 - x3 + 1)^8)/(x3 - 1)^2;
  (-1197)/64*x3 + 124355/128*(2*x3 - 1)^9 + 101745/64*(2*x3 - 1)^8 - 14535/32*(2*x3 - 1)^7 - 6783/4*(2*x3 - 1)^6 - 18207/64*(2*x3 - 1)^5 + 16065/32*(2*x3 - 1)^4 + 4305/32*(2*x3 - 1)^3 - 315/8*(2*x3 - 1)^2 - 1/128*(2*x1 + x2 + x3 - 1)*(40320*x3 - 2238390*(2*x3 - 1)^8 - 3255840*(2*x3 - 1)^7 + 813960*(2*x3 - 1)^6 + 2604672*(2*x3 - 1)^5 + 364140*(2*x3 - 1)^4 - 514080*(2*x3 - 1)^3 - 103320*(2*x3 - 1)^2 - 17766) + 1239/128;
  1/128*(5*x2 + x3 - 1)*(2*x1 + x2 + x3 - 1)*(117600*x3 + 2558160*(2*x3 - 1)^7 + 4883760*(2*x3 - 1)^6 + 1627920*(2*x3 - 1)^5 - 1627920*(2*x3 - 1)^4 - 942480*(2*x3 - 1)^3 + 28560*(2*x3 - 1)^2 - 56160) + 1/128*(5*x2 + x3 - 1)*(2640*x3 + 159885*(2*x3 - 1)^8 + 348840*(2*x3 - 1)^7 + 135660*(2*x3 - 1)^6 - 162792*(2*x3 - 1)^5 - 117810*(2*x3 - 1)^4 + 4760*(2*x3 - 1)^3 + 14700*(2*x3 - 1)^2 - 1499) + 1/128*(2*x1 + x2 + x3 - 1)*(2640*x3 + 159885*(2*x3 - 1)^8 + 348840*(2*x3 - 1)^7 + 135660*(2*x3 - 1)^6 - 162792*(2*x3 - 1)^5 - 117810*(2*x3 - 1)^4 + 4760*(2*x3 - 1)^3 + 14700*(2*x3 - 1)^2 - 1499);
  (-(36*x2*(x3 - 1)^2 + 17*(x3 - 1)^3 - 21*(x3 - 1)*(2*x2 + x3 - 1)^2))*(2*x1 + x2 + x3 - 1)*((-11424)*x3 + 149226*(2*x3 - 1)^6 + 325584*(2*x3 - 1)^5 + 203490*(2*x3 - 1)^4 - 32130*(2*x3 - 1)^2 + 5894)/(32*x3 - 32) - (36*x2*(x3 - 1)^2 + 17*(x3 - 1)^3 - 21*(x3 - 1)*(2*x2 + x3 - 1)^2)*(182*x3 + 10659*(2*x3 - 1)^7 + 27132*(2*x3 - 1)^6 + 20349*(2*x3 - 1)^5 - 5355*(2*x3 - 1)^3 - 1428*(2*x3 - 1)^2 - 59)/(32*x3 - 32) - (2*x1 + x2 + x3 - 1)*(36*x2*(2*x3 - 2) + 51*(x3 - 1)^2 - 21*(x3 - 1)*(4*x2 + 2*x3 - 2) - 21*(2*x2 + x3 - 1)^2)*(182*x3 + 10659*(2*x3 - 1)^7 + 27132*(2*x3 - 1)^6 + 20349*(2*x3 - 1)^5 - 5355*(2*x3 - 1)^3 - 1428*(2*x3 - 1)^2 - 59)/(32*x3 - 32) + 32*(36*x2*(x3 - 1)^2 + 17*(x3 - 1)^3 - 21*(x3 - 1)*(2*x2 + x3 - 1)^2)*(2*x1 + x2 + x3 - 1)*(182*x3 + 10659*(2*x3 - 1)^7 + 27132*(2*x3 - 1)^6 + 20349*(2*x3 - 1)^5 - 5355*(2*x3 - 1)^3 - 1428*(2*x3 - 1)^2 - 59)/(32*x3 - 32)^2;
  1/128*(6*(x3 - 1)^2 - 21*(x3 - 1)*(4*x2 + 2*x3 - 2) + 42*(2*x2 + x3 - 1)^2)*(2*x1 + x2 + x3 - 1)*((-10812)*x3 + 74613*(2*x3 - 1)^6 + 203490*(2*x3 - 1)^5 + 188955*(2*x3 - 1)^4 + 58140*(2*x3 - 1)^3 - 6885*(2*x3 - 1)^2 + 5011) + 1/128*(2*(x3 - 1)^3 - 21*(x3 - 1)*(2*x2 + x3 - 1)^2 + 21*(2*x2 + x3 - 1)^3)*(2*x1 + x2 + x3 - 1)*((-55080)*x3 + 895356*(2*x3 - 1)^5 + 2034900*(2*x3 - 1)^4 + 1511640*(2*x3 - 1)^3 + 348840*(2*x3 - 1)^2 + 16728) + 1/128*(2*(x3 - 1)^3 - 21*(x3 - 1)*(2*x2 + x3 - 1)^2 + 21*(2*x2 + x3 - 1)^3)*((-10812)*x3 + 74613*(2*x3 - 1)^6 + 203490*(2*x3 - 1)^5 + 188955*(2*x3 - 1)^4 + 58140*(2*x3 - 1)^3 - 6885*(2*x3 - 1)^2 + 5011);
  1/128*(2*x1 + x2 + x3 - 1)*(109440*x3 + 131670*(2*x3 - 1)^4 + 287280*(2*x3 - 1)^3 + 208620*(2*x3 - 1)^2 - 51570)*(88*x2*(x3 - 1)^3 + 41*(x3 - 1)^4 - 18*(x3 - 1)^2*(2*x2 + x3 - 1)^2 - 180*(x3 - 1)*(2*x2 + x3 - 1)^3 + 165*(2*x2 + x3 - 1)^4) + 1/128*(2*x1 + x2 + x3 - 1)*(3150*x3 + 13167*(2*x3 - 1)^5 + 35910*(2*x3 - 1)^4 + 34770*(2*x3 - 1)^3 + 13680*(2*x3 - 1)^2 - 1669)*(264*x2*(x3 - 1)^2 + 164*(x3 - 1)^3 - 18*(x3 - 1)^2*(4*x2 + 2*x3 - 2) - 540*(x3 - 1)*(2*x2 + x3 - 1)^2 - 18*(2*x3 - 2)*(2*x2 + x3 - 1)^2 + 480*(2*x2 + x3 - 1)^3) + 1/128*(88*x2*(x3 - 1)^3 + 41*(x3 - 1)^4 - 18*(x3 - 1)^2*(2*x2 + x3 - 1)^2 - 180*(x3 - 1)*(2*x2 + x3 - 1)^3 + 165*(2*x2 + x3 - 1)^4)*(3150*x3 + 13167*(2*x3 - 1)^5 + 35910*(2*x3 - 1)^4 + 34770*(2*x3 - 1)^3 + 13680*(2*x3 - 1)^2 - 1669);
  1/512*(2*x1 + x2 + x3 - 1)*(132240*x3 + 58520*(2*x3 - 1)^3 + 111720*(2*x3 - 1)^2 - 54416)*((-90)*x2*(x3 - 1)^5 - 70*(-x3 + 1)^6 - 1485*(-x3 + 1)^2*((-2)*x2 - x3 + 1)^4 + 1287*(-x3 + 1)*((-2)*x2 - x3 + 1)^5 + 630*(x3 - 1)^4*((-2)*x2 - x3 + 1)^2 + 330*(x3 - 1)^3*((-2)*x2 - x3 + 1)^3)/(x3 - 1) + 1/512*(2*x1 + x2 + x3 - 1)*(11704*x3 + 7315*(2*x3 - 1)^4 + 18620*(2*x3 - 1)^3 + 16530*(2*x3 - 1)^2 - 5209)*((-450)*x2*(x3 - 1)^4 + 420*(-x3 + 1)^5 + 5940*(-x3 + 1)^2*((-2)*x2 - x3 + 1)^3 - 6435*(-x3 + 1)*((-2)*x2 - x3 + 1)^4 + 630*(x3 - 1)^4*(4*x2 + 2*x3 - 2) + 1530*(x3 - 1)^3*((-2)*x2 - x3 + 1)^2 + 990*(x3 - 1)^2*((-2)*x2 - x3 + 1)^3 - 1485*(2*x3 - 2)*((-2)*x2 - x3 + 1)^4 - 1287*((-2)*x2 - x3 + 1)^5)/(x3 - 1) + 1/512*(11704*x3 + 7315*(2*x3 - 1)^4 + 18620*(2*x3 - 1)^3 + 16530*(2*x3 - 1)^2 - 5209)*((-90)*x2*(x3 - 1)^5 - 70*(-x3 + 1)^6 - 1485*(-x3 + 1)^2*((-2)*x2 - x3 + 1)^4 + 1287*(-x3 + 1)*((-2)*x2 - x3 + 1)^5 + 630*(x3 - 1)^4*((-2)*x2 - x3 + 1)^2 + 330*(x3 - 1)^3*((-2)*x2 - x3 + 1)^3)/(x3 - 1) - 1/512*(2*x1 + x2 + x3 - 1)*(11704*x3 + 7315*(2*x3 - 1)^4 + 18620*(2*x3 - 1)^3 + 16530*(2*x3 - 1)^2 - 5209)*((-90)*x2*(x3 - 1)^5 - 70*(-x3 + 1)^6 - 1485*(-x3 + 1)^2*((-2)*x2 - x3 + 1)^4 + 1287*(-x3 + 1)*((-2)*x2 - x3 + 1)^5 + 630*(x3 - 1)^4*((-2)*x2 - x3 + 1)^2 + 330*(x3 - 1)^3*((-2)*x2 - x3 + 1)^3)/(x3 - 1)^2;
  (-(6720*x3 + 2310*(2*x3 - 1)^2 - 2190))*(2*x1 + x2 + x3 - 1)*(780*x2*(x3 - 1)^6 + 365*(x3 - 1)^7 + 165*(x3 - 1)^5*(2*x2 + x3 - 1)^2 - 3740*(x3 - 1)^4*(2*x2 + x3 - 1)^3 + 2145*(x3 - 1)^3*(2*x2 + x3 - 1)^4 + 6006*(x3 - 1)^2*(2*x2 + x3 - 1)^5 - 5005*(x3 - 1)*(2*x2 + x3 - 1)^6)/(128*x3 - 128) - (2*x1 + x2 + x3 - 1)*(1170*x3 + 385*(2*x3 - 1)^3 + 840*(2*x3 - 1)^2 - 457)*(4680*x2*(x3 - 1)^5 + 2555*(x3 - 1)^6 + 165*(x3 - 1)^5*(4*x2 + 2*x3 - 2) - 10395*(x3 - 1)^4*(2*x2 + x3 - 1)^2 - 6380*(x3 - 1)^3*(2*x2 + x3 - 1)^3 + 36465*(x3 - 1)^2*(2*x2 + x3 - 1)^4 - 30030*(x3 - 1)*(2*x2 + x3 - 1)^5 + 6006*(2*x3 - 2)*(2*x2 + x3 - 1)^5 - 5005*(2*x2 + x3 - 1)^6)/(128*x3 - 128) - (1170*x3 + 385*(2*x3 - 1)^3 + 840*(2*x3 - 1)^2 - 457)*(780*x2*(x3 - 1)^6 + 365*(x3 - 1)^7 + 165*(x3 - 1)^5*(2*x2 + x3 - 1)^2 - 3740*(x3 - 1)^4*(2*x2 + x3 - 1)^3 + 2145*(x3 - 1)^3*(2*x2 + x3 - 1)^4 + 6006*(x3 - 1)^2*(2*x2 + x3 - 1)^5 - 5005*(x3 - 1)*(2*x2 + x3 - 1)^6)/(128*x3 - 128) + 128*(2*x1 + x2 + x3 - 1)*(1170*x3 + 385*(2*x3 - 1)^3 + 840*(2*x3 - 1)^2 - 457)*(780*x2*(x3 - 1)^6 + 365*(x3 - 1)^7 + 165*(x3 - 1)^5*(2*x2 + x3 - 1)^2 - 3740*(x3 - 1)^4*(2*x2 + x3 - 1)^3 + 2145*(x3 - 1)^3*(2*x2 + x3 - 1)^4 + 6006*(x3 - 1)^2*(2*x2 + x3 - 1)^5 - 5005*(x3 - 1)*(2*x2 + x3 - 1)^6)/(128*x3 - 128)^2;
  1/128*(1848*x3 - 168)*(2*x1 + x2 + x3 - 1)*(154*x2*(x3 - 1)^7 - 924*(-x3 + 1)^6*((-2)*x2 - x3 + 1)^2 - 6006*(-x3 + 1)^2*((-2)*x2 - x3 + 1)^6 + 4862*(-x3 + 1)*((-2)*x2 - x3 + 1)^7 + 98*(x3 - 1)^8 + 5005*(x3 - 1)^4*((-2)*x2 - x3 + 1)^4 + 3003*(x3 - 1)^3*((-2)*x2 - x3 + 1)^5)/(x3 - 1) + 1/128*(756*x3 + 231*(2*x3 - 1)^2 - 227)*(2*x1 + x2 + x3 - 1)*(1078*x2*(x3 - 1)^6 - 924*(-x3 + 1)^6*(4*x2 + 2*x3 - 2) + 5544*(-x3 + 1)^5*((-2)*x2 - x3 + 1)^2 + 36036*(-x3 + 1)^2*((-2)*x2 - x3 + 1)^5 - 34034*(-x3 + 1)*((-2)*x2 - x3 + 1)^6 + 784*(x3 - 1)^7 - 20020*(x3 - 1)^4*((-2)*x2 - x3 + 1)^3 + 5005*(x3 - 1)^3*((-2)*x2 - x3 + 1)^4 + 9009*(x3 - 1)^2*((-2)*x2 - x3 + 1)^5 - 6006*(2*x3 - 2)*((-2)*x2 - x3 + 1)^6 - 4862*((-2)*x2 - x3 + 1)^7)/(x3 - 1) + 1/128*(756*x3 + 231*(2*x3 - 1)^2 - 227)*(154*x2*(x3 - 1)^7 - 924*(-x3 + 1)^6*((-2)*x2 - x3 + 1)^2 - 6006*(-x3 + 1)^2*((-2)*x2 - x3 + 1)^6 + 4862*(-x3 + 1)*((-2)*x2 - x3 + 1)^7 + 98*(x3 - 1)^8 + 5005*(x3 - 1)^4*((-2)*x2 - x3 + 1)^4 + 3003*(x3 - 1)^3*((-2)*x2 - x3 + 1)^5)/(x3 - 1) - 1/128*(756*x3 + 231*(2*x3 - 1)^2 - 227)*(2*x1 + x2 + x3 - 1)*(154*x2*(x3 - 1)^7 - 924*(-x3 + 1)^6*((-2)*x2 - x3 + 1)^2 - 6006*(-x3 + 1)^2*((-2)*x2 - x3 + 1)^6 + 4862*(-x3 + 1)*((-2)*x2 - x3 + 1)^7 + 98*(x3 - 1)^8 + 5005*(x3 - 1)^4*((-2)*x2 - x3 + 1)^4 + 3003*(x3 - 1)^3*((-2)*x2 - x3 + 1)^5)/(x3 - 1)^2;
  1/128*(22*x3 - 1)*(2*x1 + x2 + x3 - 1)*(11760*x2*(x3 - 1)^6 + 41496*(-x3 + 1)^5*(2*x2 + x3 - 1)^2 - 69160*(-x3 + 1)^4*(2*x2 + x3 - 1)^3 - 185640*(-x3 + 1)^2*(2*x2 + x3 - 1)^5 + 334152*(-x3 + 1)*(2*x2 + x3 - 1)^6 + 6328*(x3 - 1)^7 + 1092*(x3 - 1)^6*(4*x2 + 2*x3 - 2) + 6552*(x3 - 1)^5*(2*x2 + x3 - 1)^2 + 10920*(x3 - 1)^4*(2*x2 + x3 - 1)^3 + 262080*(x3 - 1)^3*(2*x2 + x3 - 1)^4 + 150696*(x3 - 1)^2*(2*x2 + x3 - 1)^5 - 30940*(2*x3 - 2)*(2*x2 + x3 - 1)^6 + 254592*(2*x2 + x3 - 1)^7) + 1/128*(22*x3 - 1)*(1680*x2*(x3 - 1)^7 + 13832*(-x3 + 1)^5*(2*x2 + x3 - 1)^3 - 30940*(-x3 + 1)^2*(2*x2 + x3 - 1)^6 + 47736*(-x3 + 1)*(2*x2 + x3 - 1)^7 + 791*(x3 - 1)^8 + 1092*(x3 - 1)^6*(2*x2 + x3 - 1)^2 + 2730*(x3 - 1)^4*(2*x2 + x3 - 1)^4 + 50232*(x3 - 1)^3*(2*x2 + x3 - 1)^5 + 37791*(2*x2 + x3 - 1)^8) + 11/64*(2*x1 + x2 + x3 - 1)*(1680*x2*(x3 - 1)^7 + 13832*(-x3 + 1)^5*(2*x2 + x3 - 1)^3 - 30940*(-x3 + 1)^2*(2*x2 + x3 - 1)^6 + 47736*(-x3 + 1)*(2*x2 + x3 - 1)^7 + 791*(x3 - 1)^8 + 1092*(x3 - 1)^6*(2*x2 + x3 - 1)^2 + 2730*(x3 - 1)^4*(2*x2 + x3 - 1)^4 + 50232*(x3 - 1)^3*(2*x2 + x3 - 1)^5 + 37791*(2*x2 + x3 - 1)^8);
  (-(2*x1 + x2 + x3 - 1))*(14742*x2*(x3 - 1)^8 + 9660*(x3 - 1)^9 - 9828*(x3 - 1)^8*(4*x2 + 2*x3 - 2) - 95004*(x3 - 1)^7*(2*x2 + x3 - 1)^2 + 322140*(x3 - 1)^6*(2*x2 + x3 - 1)^3 + 401310*(x3 - 1)^5*(2*x2 + x3 - 1)^4 - 1587222*(x3 - 1)^4*(2*x2 + x3 - 1)^5 + 92820*(x3 - 1)^3*(2*x2 + x3 - 1)^6 + 1965132*(x3 - 1)^2*(2*x2 + x3 - 1)^7 - 1322685*(x3 - 1)*(2*x2 + x3 - 1)^8 + 188955*(2*x3 - 2)*(2*x2 + x3 - 1)^8 - 146965*(2*x2 + x3 - 1)^9)/(256*x3 - 256) - (1638*x2*(x3 - 1)^9 + 966*(x3 - 1)^10 - 9828*(x3 - 1)^8*(2*x2 + x3 - 1)^2 - 5460*(x3 - 1)^7*(2*x2 + x3 - 1)^3 + 90090*(x3 - 1)^6*(2*x2 + x3 - 1)^4 - 27846*(x3 - 1)^5*(2*x2 + x3 - 1)^5 - 241332*(x3 - 1)^4*(2*x2 + x3 - 1)^6 + 151164*(x3 - 1)^3*(2*x2 + x3 - 1)^7 + 188955*(x3 - 1)^2*(2*x2 + x3 - 1)^8 - 146965*(x3 - 1)*(2*x2 + x3 - 1)^9)/(256*x3 - 256) + 256*(2*x1 + x2 + x3 - 1)*(1638*x2*(x3 - 1)^9 + 966*(x3 - 1)^10 - 9828*(x3 - 1)^8*(2*x2 + x3 - 1)^2 - 5460*(x3 - 1)^7*(2*x2 + x3 - 1)^3 + 90090*(x3 - 1)^6*(2*x2 + x3 - 1)^4 - 27846*(x3 - 1)^5*(2*x2 + x3 - 1)^5 - 241332*(x3 - 1)^4*(2*x2 + x3 - 1)^6 + 151164*(x3 - 1)^3*(2*x2 + x3 - 1)^7 + 188955*(x3 - 1)^2*(2*x2 + x3 - 1)^8 - 146965*(x3 - 1)*(2*x2 + x3 - 1)^9)/(256*x3 - 256)^2;
  1/256*(-(x2 + x3 - 1)^2 + 3*(2*x1 + x2 + x3 - 1)^2)*(117600*x3 + 2558160*(2*x3 - 1)^7 + 4883760*(2*x3 - 1)^6 + 1627920*(2*x3 - 1)^5 - 1627920*(2*x3 - 1)^4 - 942480*(2*x3 - 1)^3 + 28560*(2*x3 - 1)^2 - 56160) + 1/256*(12*x1 + 4*x2 + 4*x3 - 4)*(2640*x3 + 159885*(2*x3 - 1)^8 + 348840*(2*x3 - 1)^7 + 135660*(2*x3 - 1)^6 - 162792*(2*x3 - 1)^5 - 117810*(2*x3 - 1)^4 + 4760*(2*x3 - 1)^3 + 14700*(2*x3 - 1)^2 - 1499);
  1/16*(-(x2 + x3 - 1)^2 + 3*(2*x1 + x2 + x3 - 1)^2)*(7*x2 + x3 - 1)*((-11424)*x3 + 149226*(2*x3 - 1)^6 + 325584*(2*x3 - 1)^5 + 203490*(2*x3 - 1)^4 - 32130*(2*x3 - 1)^2 + 5894) + 1/16*(-(x2 + x3 - 1)^2 + 3*(2*x1 + x2 + x3 - 1)^2)*(182*x3 + 10659*(2*x3 - 1)^7 + 27132*(2*x3 - 1)^6 + 20349*(2*x3 - 1)^5 - 5355*(2*x3 - 1)^3 - 1428*(2*x3 - 1)^2 - 59) + 1/16*(7*x2 + x3 - 1)*(12*x1 + 4*x2 + 4*x3 - 4)*(182*x3 + 10659*(2*x3 - 1)^7 + 27132*(2*x3 - 1)^6 + 20349*(2*x3 - 1)^5 - 5355*(2*x3 - 1)^3 - 1428*(2*x3 - 1)^2 - 59);
  ((x2 + x3 - 1)^2 - 3*(2*x1 + x2 + x3 - 1)^2)*(20*x2*(x3 - 1)^2 + 8*(x3 - 1)^3 - 9*(x3 - 1)*(2*x2 + x3 - 1)^2)*((-55080)*x3 + 895356*(2*x3 - 1)^5 + 2034900*(2*x3 - 1)^4 + 1511640*(2*x3 - 1)^3 + 348840*(2*x3 - 1)^2 + 16728)/(128*x3 - 128) + ((x2 + x3 - 1)^2 - 3*(2*x1 + x2 + x3 - 1)^2)*(20*x2*(2*x3 - 2) + 24*(x3 - 1)^2 - 9*(x3 - 1)*(4*x2 + 2*x3 - 2) - 9*(2*x2 + x3 - 1)^2)*((-10812)*x3 + 74613*(2*x3 - 1)^6 + 203490*(2*x3 - 1)^5 + 188955*(2*x3 - 1)^4 + 58140*(2*x3 - 1)^3 - 6885*(2*x3 - 1)^2 + 5011)/(128*x3 - 128) + (20*x2*(x3 - 1)^2 + 8*(x3 - 1)^3 - 9*(x3 - 1)*(2*x2 + x3 - 1)^2)*((-12)*x1 - 4*x2 - 4*x3 + 4)*((-10812)*x3 + 74613*(2*x3 - 1)^6 + 203490*(2*x3 - 1)^5 + 188955*(2*x3 - 1)^4 + 58140*(2*x3 - 1)^3 - 6885*(2*x3 - 1)^2 + 5011)/(128*x3 - 128) - 128*((x2 + x3 - 1)^2 - 3*(2*x1 + x2 + x3 - 1)^2)*(20*x2*(x3 - 1)^2 + 8*(x3 - 1)^3 - 9*(x3 - 1)*(2*x2 + x3 - 1)^2)*((-10812)*x3 + 74613*(2*x3 - 1)^6 + 203490*(2*x3 - 1)^5 + 188955*(2*x3 - 1)^4 + 58140*(2*x3 - 1)^3 - 6885*(2*x3 - 1)^2 + 5011)/(128*x3 - 128)^2;
  1/256*(-(x2 + x3 - 1)^2 + 3*(2*x1 + x2 + x3 - 1)^2)*(126*x2*(x3 - 1)^3 - 225*(-x3 + 1)^2*((-2)*x2 - x3 + 1)^2 + 165*(-x3 + 1)*((-2)*x2 - x3 + 1)^3 + 68*(x3 - 1)^4)*(109440*x3 + 131670*(2*x3 - 1)^4 + 287280*(2*x3 - 1)^3 + 208620*(2*x3 - 1)^2 - 51570)/(x3 - 1) + 1/256*(-(x2 + x3 - 1)^2 + 3*(2*x1 + x2 + x3 - 1)^2)*(3150*x3 + 13167*(2*x3 - 1)^5 + 35910*(2*x3 - 1)^4 + 34770*(2*x3 - 1)^3 + 13680*(2*x3 - 1)^2 - 1669)*(378*x2*(x3 - 1)^2 - 225*(-x3 + 1)^2*(4*x2 + 2*x3 - 2) - 495*(-x3 + 1)*((-2)*x2 - x3 + 1)^2 + 272*(x3 - 1)^3 - 225*(2*x3 - 2)*((-2)*x2 - x3 + 1)^2 - 165*((-2)*x2 - x3 + 1)^3)/(x3 - 1) + 1/256*(12*x1 + 4*x2 + 4*x3 - 4)*(126*x2*(x3 - 1)^3 - 225*(-x3 + 1)^2*((-2)*x2 - x3 + 1)^2 + 165*(-x3 + 1)*((-2)*x2 - x3 + 1)^3 + 68*(x3 - 1)^4)*(3150*x3 + 13167*(2*x3 - 1)^5 + 35910*(2*x3 - 1)^4 + 34770*(2*x3 - 1)^3 + 13680*(2*x3 - 1)^2 - 1669)/(x3 - 1) - 1/256*(-(x2 + x3 - 1)^2 + 3*(2*x1 + x2 + x3 - 1)^2)*(126*x2*(x3 - 1)^3 - 225*(-x3 + 1)^2*((-2)*x2 - x3 + 1)^2 + 165*(-x3 + 1)*((-2)*x2 - x3 + 1)^3 + 68*(x3 - 1)^4)*(3150*x3 + 13167*(2*x3 - 1)^5 + 35910*(2*x3 - 1)^4 + 34770*(2*x3 - 1)^3 + 13680*(2*x3 - 1)^2 - 1669)/(x3 - 1)^2;
  1/512*(-(x2 + x3 - 1)^2 + 3*(2*x1 + x2 + x3 - 1)^2)*(132240*x3 + 58520*(2*x3 - 1)^3 + 111720*(2*x3 - 1)^2 - 54416)*(200*x2*(x3 - 1)^3 + 71*(x3 - 1)^4 + 330*(x3 - 1)^2*(2*x2 + x3 - 1)^2 - 1100*(x3 - 1)*(2*x2 + x3 - 1)^3 + 715*(2*x2 + x3 - 1)^4) + 1/512*(-(x2 + x3 - 1)^2 + 3*(2*x1 + x2 + x3 - 1)^2)*(11704*x3 + 7315*(2*x3 - 1)^4 + 18620*(2*x3 - 1)^3 + 16530*(2*x3 - 1)^2 - 5209)*(600*x2*(x3 - 1)^2 + 284*(x3 - 1)^3 + 330*(x3 - 1)^2*(4*x2 + 2*x3 - 2) - 3300*(x3 - 1)*(2*x2 + x3 - 1)^2 + 330*(2*x3 - 2)*(2*x2 + x3 - 1)^2 + 1760*(2*x2 + x3 - 1)^3) + 1/512*(12*x1 + 4*x2 + 4*x3 - 4)*(11704*x3 + 7315*(2*x3 - 1)^4 + 18620*(2*x3 - 1)^3 + 16530*(2*x3 - 1)^2 - 5209)*(200*x2*(x3 - 1)^3 + 71*(x3 - 1)^4 + 330*(x3 - 1)^2*(2*x2 + x3 - 1)^2 - 1100*(x3 - 1)*(2*x2 + x3 - 1)^3 + 715*(2*x2 + x3 - 1)^4);
  ((x2 + x3 - 1)^2 - 3*(2*x1 + x2 + x3 - 1)^2)*(6720*x3 + 2310*(2*x3 - 1)^2 - 2190)*(770*x2*(x3 - 1)^5 + 386*(x3 - 1)^6 - 990*(x3 - 1)^4*(2*x2 + x3 - 1)^2 - 1430*(x3 - 1)^3*(2*x2 + x3 - 1)^3 + 5005*(x3 - 1)^2*(2*x2 + x3 - 1)^4 - 3003*(x3 - 1)*(2*x2 + x3 - 1)^5)/(128*x3 - 128) + ((x2 + x3 - 1)^2 - 3*(2*x1 + x2 + x3 - 1)^2)*(1170*x3 + 385*(2*x3 - 1)^3 + 840*(2*x3 - 1)^2 - 457)*(3850*x2*(x3 - 1)^4 + 2316*(x3 - 1)^5 - 990*(x3 - 1)^4*(4*x2 + 2*x3 - 2) - 8250*(x3 - 1)^3*(2*x2 + x3 - 1)^2 + 15730*(x3 - 1)^2*(2*x2 + x3 - 1)^3 - 15015*(x3 - 1)*(2*x2 + x3 - 1)^4 + 5005*(2*x3 - 2)*(2*x2 + x3 - 1)^4 - 3003*(2*x2 + x3 - 1)^5)/(128*x3 - 128) + ((-12)*x1 - 4*x2 - 4*x3 + 4)*(1170*x3 + 385*(2*x3 - 1)^3 + 840*(2*x3 - 1)^2 - 457)*(770*x2*(x3 - 1)^5 + 386*(x3 - 1)^6 - 990*(x3 - 1)^4*(2*x2 + x3 - 1)^2 - 1430*(x3 - 1)^3*(2*x2 + x3 - 1)^3 + 5005*(x3 - 1)^2*(2*x2 + x3 - 1)^4 - 3003*(x3 - 1)*(2*x2 + x3 - 1)^5)/(128*x3 - 128) - 128*((x2 + x3 - 1)^2 - 3*(2*x1 + x2 + x3 - 1)^2)*(1170*x3 + 385*(2*x3 - 1)^3 + 840*(2*x3 - 1)^2 - 457)*(770*x2*(x3 - 1)^5 + 386*(x3 - 1)^6 - 990*(x3 - 1)^4*(2*x2 + x3 - 1)^2 - 1430*(x3 - 1)^3*(2*x2 + x3 - 1)^3 + 5005*(x3 - 1)^2*(2*x2 + x3 - 1)^4 - 3003*(x3 - 1)*(2*x2 + x3 - 1)^5)/(128*x3 - 128)^2;
  1/128*(1848*x3 - 168)*((x2 + x3 - 1)^2 - 3*(2*x1 + x2 + x3 - 1)^2)*(96*x2*(x3 - 1)^5 + 23*(x3 - 1)^6 + 780*(x3 - 1)^4*(2*x2 + x3 - 1)^2 - 1820*(x3 - 1)^3*(2*x2 + x3 - 1)^3 - 1365*(x3 - 1)^2*(2*x2 + x3 - 1)^4 + 5460*(x3 - 1)*(2*x2 + x3 - 1)^5 - 3094*(2*x2 + x3 - 1)^6) + 1/128*((x2 + x3 - 1)^2 - 3*(2*x1 + x2 + x3 - 1)^2)*(756*x3 + 231*(2*x3 - 1)^2 - 227)*(480*x2*(x3 - 1)^4 + 138*(x3 - 1)^5 + 780*(x3 - 1)^4*(4*x2 + 2*x3 - 2) - 2340*(x3 - 1)^3*(2*x2 + x3 - 1)^2 - 10920*(x3 - 1)^2*(2*x2 + x3 - 1)^3 + 27300*(x3 - 1)*(2*x2 + x3 - 1)^4 - 1365*(2*x3 - 2)*(2*x2 + x3 - 1)^4 - 13104*(2*x2 + x3 - 1)^5) + 1/128*(756*x3 + 231*(2*x3 - 1)^2 - 227)*((-12)*x1 - 4*x2 - 4*x3 + 4)*(96*x2*(x3 - 1)^5 + 23*(x3 - 1)^6 + 780*(x3 - 1)^4*(2*x2 + x3 - 1)^2 - 1820*(x3 - 1)^3*(2*x2 + x3 - 1)^3 - 1365*(x3 - 1)^2*(2*x2 + x3 - 1)^4 + 5460*(x3 - 1)*(2*x2 + x3 - 1)^5 - 3094*(2*x2 + x3 - 1)^6);
  1/64*(22*x3 - 1)*(-(x2 + x3 - 1)^2 + 3*(2*x1 + x2 + x3 - 1)^2)*(6370*x2*(x3 - 1)^6 - 819*(-x3 + 1)^6*(4*x2 + 2*x3 - 2) + 4914*(-x3 + 1)^5*((-2)*x2 - x3 + 1)^2 - 23205*(-x3 + 1)^3*((-2)*x2 - x3 + 1)^4 + 125307*(-x3 + 1)^2*((-2)*x2 - x3 + 1)^5 - 88179*(-x3 + 1)*((-2)*x2 - x3 + 1)^6 + 3584*(x3 - 1)^7 - 15015*(x3 - 1)^5*((-2)*x2 - x3 + 1)^2 - 20475*(x3 - 1)^4*((-2)*x2 - x3 + 1)^3 + 45500*(x3 - 1)^3*((-2)*x2 - x3 + 1)^4 - 23205*(2*x3 - 2)*((-2)*x2 - x3 + 1)^6 - 12597*((-2)*x2 - x3 + 1)^7)/(x3 - 1) + 1/64*(22*x3 - 1)*(12*x1 + 4*x2 + 4*x3 - 4)*(910*x2*(x3 - 1)^7 - 819*(-x3 + 1)^6*((-2)*x2 - x3 + 1)^2 + 4641*(-x3 + 1)^3*((-2)*x2 - x3 + 1)^5 - 23205*(-x3 + 1)^2*((-2)*x2 - x3 + 1)^6 + 12597*(-x3 + 1)*((-2)*x2 - x3 + 1)^7 + 448*(x3 - 1)^8 + 5005*(x3 - 1)^5*((-2)*x2 - x3 + 1)^3 + 11375*(x3 - 1)^4*((-2)*x2 - x3 + 1)^4)/(x3 - 1) + 11/32*(-(x2 + x3 - 1)^2 + 3*(2*x1 + x2 + x3 - 1)^2)*(910*x2*(x3 - 1)^7 - 819*(-x3 + 1)^6*((-2)*x2 - x3 + 1)^2 + 4641*(-x3 + 1)^3*((-2)*x2 - x3 + 1)^5 - 23205*(-x3 + 1)^2*((-2)*x2 - x3 + 1)^6 + 12597*(-x3 + 1)*((-2)*x2 - x3 + 1)^7 + 448*(x3 - 1)^8 + 5005*(x3 - 1)^5*((-2)*x2 - x3 + 1)^3 + 11375*(x3 - 1)^4*((-2)*x2 - x3 + 1)^4)/(x3 - 1) - 1/64*(22*x3 - 1)*(-(x2 + x3 - 1)^2 + 3*(2*x1 + x2 + x3 - 1)^2)*(910*x2*(x3 - 1)^7 - 819*(-x3 + 1)^6*((-2)*x2 - x3 + 1)^2 + 4641*(-x3 + 1)^3*((-2)*x2 - x3 + 1)^5 - 23205*(-x3 + 1)^2*((-2)*x2 - x3 + 1)^6 + 12597*(-x3 + 1)*((-2)*x2 - x3 + 1)^7 + 448*(x3 - 1)^8 + 5005*(x3 - 1)^5*((-2)*x2 - x3 + 1)^3 + 11375*(x3 - 1)^4*((-2)*x2 - x3 + 1)^4)/(x3 - 1)^2;
  1/256*(-(x2 + x3 - 1)^2 + 3*(2*x1 + x2 + x3 - 1)^2)*(784*x2*(x3 - 1)^6 + 952*(-x3 + 1)^7 + 51240*(-x3 + 1)^5*(2*x2 + x3 - 1)^2 - 309120*(-x3 + 1)^4*(2*x2 + x3 - 1)^3 + 223720*(-x3 + 1)^3*(2*x2 + x3 - 1)^4 + 1356600*(-x3 + 1)*(2*x2 + x3 - 1)^6 + 9660*(x3 - 1)^6*(4*x2 + 2*x3 - 2) + 57960*(x3 - 1)^5*(2*x2 + x3 - 1)^2 + 642600*(x3 - 1)^3*(2*x2 + x3 - 1)^4 + 548352*(x3 - 1)^2*(2*x2 + x3 - 1)^5 + 27132*(2*x3 - 2)*(2*x2 + x3 - 1)^6 + 620160*(2*x2 + x3 - 1)^7) + 1/256*(12*x1 + 4*x2 + 4*x3 - 4)*(112*x2*(x3 - 1)^7 - 119*(-x3 + 1)^8 + 17080*(-x3 + 1)^5*(2*x2 + x3 - 1)^3 - 55930*(-x3 + 1)^4*(2*x2 + x3 - 1)^4 + 193800*(-x3 + 1)*(2*x2 + x3 - 1)^7 + 9660*(x3 - 1)^6*(2*x2 + x3 - 1)^2 + 128520*(x3 - 1)^3*(2*x2 + x3 - 1)^5 + 27132*(x3 - 1)^2*(2*x2 + x3 - 1)^6 + 101745*(2*x2 + x3 - 1)^8);
  (-(6*x1*(x2 + x3 - 1)^3 + 3*(x2 + x3 - 1)^4 - 5*(x2 + x3 - 1)*(2*x1 + x2 + x3 - 1)^3))*((-11424)*x3 + 149226*(2*x3 - 1)^6 + 325584*(2*x3 - 1)^5 + 203490*(2*x3 - 1)^4 - 32130*(2*x3 - 1)^2 + 5894)/(16*x2 + 16*x3 - 16) - (18*x1*(x2 + x3 - 1)^2 + 12*(x2 + x3 - 1)^3 - 15*(x2 + x3 - 1)*(2*x1 + x2 + x3 - 1)^2 - 5*(2*x1 + x2 + x3 - 1)^3)*(182*x3 + 10659*(2*x3 - 1)^7 + 27132*(2*x3 - 1)^6 + 20349*(2*x3 - 1)^5 - 5355*(2*x3 - 1)^3 - 1428*(2*x3 - 1)^2 - 59)/(16*x2 + 16*x3 - 16) + 16*(6*x1*(x2 + x3 - 1)^3 + 3*(x2 + x3 - 1)^4 - 5*(x2 + x3 - 1)*(2*x1 + x2 + x3 - 1)^3)*(182*x3 + 10659*(2*x3 - 1)^7 + 27132*(2*x3 - 1)^6 + 20349*(2*x3 - 1)^5 - 5355*(2*x3 - 1)^3 - 1428*(2*x3 - 1)^2 - 59)/(16*x2 + 16*x3 - 16)^2;
  1/128*(9*x2 + x3 - 1)*(6*x1*(x2 + x3 - 1)^3 + 5*(-x2 - x3 + 1)*(2*x1 + x2 + x3 - 1)^3 + 3*(x2 + x3 - 1)^4)*((-55080)*x3 + 895356*(2*x3 - 1)^5 + 2034900*(2*x3 - 1)^4 + 1511640*(2*x3 - 1)^3 + 348840*(2*x3 - 1)^2 + 16728)/(-x2 - x3 + 1) + 1/128*(9*x2 + x3 - 1)*(18*x1*(x2 + x3 - 1)^2 + 15*(-x2 - x3 + 1)*(2*x1 + x2 + x3 - 1)^2 + 12*(x2 + x3 - 1)^3 - 5*(2*x1 + x2 + x3 - 1)^3)*((-10812)*x3 + 74613*(2*x3 - 1)^6 + 203490*(2*x3 - 1)^5 + 188955*(2*x3 - 1)^4 + 58140*(2*x3 - 1)^3 - 6885*(2*x3 - 1)^2 + 5011)/(-x2 - x3 + 1) + 1/128*(6*x1*(x2 + x3 - 1)^3 + 5*(-x2 - x3 + 1)*(2*x1 + x2 + x3 - 1)^3 + 3*(x2 + x3 - 1)^4)*((-10812)*x3 + 74613*(2*x3 - 1)^6 + 203490*(2*x3 - 1)^5 + 188955*(2*x3 - 1)^4 + 58140*(2*x3 - 1)^3 - 6885*(2*x3 - 1)^2 + 5011)/(-x2 - x3 + 1) + 1/128*(9*x2 + x3 - 1)*(6*x1*(x2 + x3 - 1)^3 + 5*(-x2 - x3 + 1)*(2*x1 + x2 + x3 - 1)^3 + 3*(x2 + x3 - 1)^4)*((-10812)*x3 + 74613*(2*x3 - 1)^6 + 203490*(2*x3 - 1)^5 + 188955*(2*x3 - 1)^4 + 58140*(2*x3 - 1)^3 - 6885*(2*x3 - 1)^2 + 5011)/(-x2 - x3 + 1)^2;
  1/128*(6*x1*(x2 + x3 - 1)^3 + 5*(-x2 - x3 + 1)*(2*x1 + x2 + x3 - 1)^3 + 3*(x2 + x3 - 1)^4)*(140*x2*(x3 - 1)^2 + 55*(-x3 + 1)*((-2)*x2 - x3 + 1)^2 + 51*(x3 - 1)^3)*(109440*x3 + 131670*(2*x3 - 1)^4 + 287280*(2*x3 - 1)^3 + 208620*(2*x3 - 1)^2 - 51570)/((x3 - 1)*(x2 + x3 - 1)) + 1/128*(6*x1*(x2 + x3 - 1)^3 + 5*(-x2 - x3 + 1)*(2*x1 + x2 + x3 - 1)^3 + 3*(x2 + x3 - 1)^4)*(140*x2*(2*x3 - 2) + 55*(-x3 + 1)*(4*x2 + 2*x3 - 2) + 153*(x3 - 1)^2 - 55*((-2)*x2 - x3 + 1)^2)*(3150*x3 + 13167*(2*x3 - 1)^5 + 35910*(2*x3 - 1)^4 + 34770*(2*x3 - 1)^3 + 13680*(2*x3 - 1)^2 - 1669)/((x3 - 1)*(x2 + x3 - 1)) + 1/128*(140*x2*(x3 - 1)^2 + 55*(-x3 + 1)*((-2)*x2 - x3 + 1)^2 + 51*(x3 - 1)^3)*(18*x1*(x2 + x3 - 1)^2 + 15*(-x2 - x3 + 1)*(2*x1 + x2 + x3 - 1)^2 + 12*(x2 + x3 - 1)^3 - 5*(2*x1 + x2 + x3 - 1)^3)*(3150*x3 + 13167*(2*x3 - 1)^5 + 35910*(2*x3 - 1)^4 + 34770*(2*x3 - 1)^3 + 13680*(2*x3 - 1)^2 - 1669)/((x3 - 1)*(x2 + x3 - 1)) - 1/128*(6*x1*(x2 + x3 - 1)^3 + 5*(-x2 - x3 + 1)*(2*x1 + x2 + x3 - 1)^3 + 3*(x2 + x3 - 1)^4)*(140*x2*(x3 - 1)^2 + 55*(-x3 + 1)*((-2)*x2 - x3 + 1)^2 + 51*(x3 - 1)^3)*(3150*x3 + 13167*(2*x3 - 1)^5 + 35910*(2*x3 - 1)^4 + 34770*(2*x3 - 1)^3 + 13680*(2*x3 - 1)^2 - 1669)/((x3 - 1)*(x2 + x3 - 1)^2) - 1/128*(6*x1*(x2 + x3 - 1)^3 + 5*(-x2 - x3 + 1)*(2*x1 + x2 + x3 - 1)^3 + 3*(x2 + x3 - 1)^4)*(140*x2*(x3 - 1)^2 + 55*(-x3 + 1)*((-2)*x2 - x3 + 1)^2 + 51*(x3 - 1)^3)*(3150*x3 + 13167*(2*x3 - 1)^5 + 35910*(2*x3 - 1)^4 + 34770*(2*x3 - 1)^3 + 13680*(2*x3 - 1)^2 - 1669)/((x3 - 1)^2*(x2 + x3 - 1));
  (-(6*x1*(x2 + x3 - 1)^3 + 3*(x2 + x3 - 1)^4 - 5*(x2 + x3 - 1)*(2*x1 + x2 + x3 - 1)^3))*(132240*x3 + 58520*(2*x3 - 1)^3 + 111720*(2*x3 - 1)^2 - 54416)*(198*x2*(x3 - 1)^2 + 92*(x3 - 1)^3 - 231*(x3 - 1)*(2*x2 + x3 - 1)^2 + 143*(2*x2 + x3 - 1)^3)/(128*x2 + 128*x3 - 128) - (6*x1*(x2 + x3 - 1)^3 + 3*(x2 + x3 - 1)^4 - 5*(x2 + x3 - 1)*(2*x1 + x2 + x3 - 1)^3)*(198*x2*(2*x3 - 2) + 276*(x3 - 1)^2 - 231*(x3 - 1)*(4*x2 + 2*x3 - 2) + 198*(2*x2 + x3 - 1)^2)*(11704*x3 + 7315*(2*x3 - 1)^4 + 18620*(2*x3 - 1)^3 + 16530*(2*x3 - 1)^2 - 5209)/(128*x2 + 128*x3 - 128) - (18*x1*(x2 + x3 - 1)^2 + 12*(x2 + x3 - 1)^3 - 15*(x2 + x3 - 1)*(2*x1 + x2 + x3 - 1)^2 - 5*(2*x1 + x2 + x3 - 1)^3)*(198*x2*(x3 - 1)^2 + 92*(x3 - 1)^3 - 231*(x3 - 1)*(2*x2 + x3 - 1)^2 + 143*(2*x2 + x3 - 1)^3)*(11704*x3 + 7315*(2*x3 - 1)^4 + 18620*(2*x3 - 1)^3 + 16530*(2*x3 - 1)^2 - 5209)/(128*x2 + 128*x3 - 128) + 128*(6*x1*(x2 + x3 - 1)^3 + 3*(x2 + x3 - 1)^4 - 5*(x2 + x3 - 1)*(2*x1 + x2 + x3 - 1)^3)*(198*x2*(x3 - 1)^2 + 92*(x3 - 1)^3 - 231*(x3 - 1)*(2*x2 + x3 - 1)^2 + 143*(2*x2 + x3 - 1)^3)*(11704*x3 + 7315*(2*x3 - 1)^4 + 18620*(2*x3 - 1)^3 + 16530*(2*x3 - 1)^2 - 5209)/(128*x2 + 128*x3 - 128)^2;
  (6720*x3 + 2310*(2*x3 - 1)^2 - 2190)*(6*x1*(x2 + x3 - 1)^3 + 3*(x2 + x3 - 1)^4 - 5*(x2 + x3 - 1)*(2*x1 + x2 + x3 - 1)^3)*(168*x2*(x3 - 1)^3 + 127*(x3 - 1)^4 - 1326*(x3 - 1)^2*(2*x2 + x3 - 1)^2 + 2548*(x3 - 1)*(2*x2 + x3 - 1)^3 - 1365*(2*x2 + x3 - 1)^4)/(64*x2 + 64*x3 - 64) + (6*x1*(x2 + x3 - 1)^3 + 3*(x2 + x3 - 1)^4 - 5*(x2 + x3 - 1)*(2*x1 + x2 + x3 - 1)^3)*(1170*x3 + 385*(2*x3 - 1)^3 + 840*(2*x3 - 1)^2 - 457)*(504*x2*(x3 - 1)^2 + 508*(x3 - 1)^3 - 1326*(x3 - 1)^2*(4*x2 + 2*x3 - 2) + 7644*(x3 - 1)*(2*x2 + x3 - 1)^2 - 1326*(2*x3 - 2)*(2*x2 + x3 - 1)^2 - 2912*(2*x2 + x3 - 1)^3)/(64*x2 + 64*x3 - 64) + (1170*x3 + 385*(2*x3 - 1)^3 + 840*(2*x3 - 1)^2 - 457)*(18*x1*(x2 + x3 - 1)^2 + 12*(x2 + x3 - 1)^3 - 15*(x2 + x3 - 1)*(2*x1 + x2 + x3 - 1)^2 - 5*(2*x1 + x2 + x3 - 1)^3)*(168*x2*(x3 - 1)^3 + 127*(x3 - 1)^4 - 1326*(x3 - 1)^2*(2*x2 + x3 - 1)^2 + 2548*(x3 - 1)*(2*x2 + x3 - 1)^3 - 1365*(2*x2 + x3 - 1)^4)/(64*x2 + 64*x3 - 64) - 64*(6*x1*(x2 + x3 - 1)^3 + 3*(x2 + x3 - 1)^4 - 5*(x2 + x3 - 1)*(2*x1 + x2 + x3 - 1)^3)*(1170*x3 + 385*(2*x3 - 1)^3 + 840*(2*x3 - 1)^2 - 457)*(168*x2*(x3 - 1)^3 + 127*(x3 - 1)^4 - 1326*(x3 - 1)^2*(2*x2 + x3 - 1)^2 + 2548*(x3 - 1)*(2*x2 + x3 - 1)^3 - 1365*(2*x2 + x3 - 1)^4)/(64*x2 + 64*x3 - 64)^2;
  1/64*(1848*x3 - 168)*(6*x1*(x2 + x3 - 1)^3 + 5*(-x2 - x3 + 1)*(2*x1 + x2 + x3 - 1)^3 + 3*(x2 + x3 - 1)^4)*(390*x2*(x3 - 1)^5 + 1820*(-x3 + 1)^3*(2*x2 + x3 - 1)^3 + 1547*(-x3 + 1)*(2*x2 + x3 - 1)^5 + 174*(x3 - 1)^6 + 3185*(x3 - 1)^2*(2*x2 + x3 - 1)^4)/((x3 - 1)*(x2 + x3 - 1)) + 1/64*(756*x3 + 231*(2*x3 - 1)^2 - 227)*(6*x1*(x2 + x3 - 1)^3 + 5*(-x2 - x3 + 1)*(2*x1 + x2 + x3 - 1)^3 + 3*(x2 + x3 - 1)^4)*(1950*x2*(x3 - 1)^4 + 5460*(-x3 + 1)^3*(2*x2 + x3 - 1)^2 - 5460*(-x3 + 1)^2*(2*x2 + x3 - 1)^3 + 7735*(-x3 + 1)*(2*x2 + x3 - 1)^4 + 1044*(x3 - 1)^5 + 12740*(x3 - 1)^2*(2*x2 + x3 - 1)^3 + 3185*(2*x3 - 2)*(2*x2 + x3 - 1)^4 - 1547*(2*x2 + x3 - 1)^5)/((x3 - 1)*(x2 + x3 - 1)) + 1/64*(756*x3 + 231*(2*x3 - 1)^2 - 227)*(18*x1*(x2 + x3 - 1)^2 + 15*(-x2 - x3 + 1)*(2*x1 + x2 + x3 - 1)^2 + 12*(x2 + x3 - 1)^3 - 5*(2*x1 + x2 + x3 - 1)^3)*(390*x2*(x3 - 1)^5 + 1820*(-x3 + 1)^3*(2*x2 + x3 - 1)^3 + 1547*(-x3 + 1)*(2*x2 + x3 - 1)^5 + 174*(x3 - 1)^6 + 3185*(x3 - 1)^2*(2*x2 + x3 - 1)^4)/((x3 - 1)*(x2 + x3 - 1)) - 1/64*(756*x3 + 231*(2*x3 - 1)^2 - 227)*(6*x1*(x2 + x3 - 1)^3 + 5*(-x2 - x3 + 1)*(2*x1 + x2 + x3 - 1)^3 + 3*(x2 + x3 - 1)^4)*(390*x2*(x3 - 1)^5 + 1820*(-x3 + 1)^3*(2*x2 + x3 - 1)^3 + 1547*(-x3 + 1)*(2*x2 + x3 - 1)^5 + 174*(x3 - 1)^6 + 3185*(x3 - 1)^2*(2*x2 + x3 - 1)^4)/((x3 - 1)*(x2 + x3 - 1)^2) - 1/64*(756*x3 + 231*(2*x3 - 1)^2 - 227)*(6*x1*(x2 + x3 - 1)^3 + 5*(-x2 - x3 + 1)*(2*x1 + x2 + x3 - 1)^3 + 3*(x2 + x3 - 1)^4)*(390*x2*(x3 - 1)^5 + 1820*(-x3 + 1)^3*(2*x2 + x3 - 1)^3 + 1547*(-x3 + 1)*(2*x2 + x3 - 1)^5 + 174*(x3 - 1)^6 + 3185*(x3 - 1)^2*(2*x2 + x3 - 1)^4)/((x3 - 1)^2*(x2 + x3 - 1));
  (-(22*x3 - 1))*(6*x1*(x2 + x3 - 1)^3 + 3*(x2 + x3 - 1)^4 - 5*(x2 + x3 - 1)*(2*x1 + x2 + x3 - 1)^3)*(2940*x2*(x3 - 1)^4 + 1902*(x3 - 1)^5 - 1995*(x3 - 1)^4*(4*x2 + 2*x3 - 2) - 5040*(x3 - 1)^3*(2*x2 + x3 - 1)^2 + 38640*(x3 - 1)^2*(2*x2 + x3 - 1)^3 - 74970*(x3 - 1)*(2*x2 + x3 - 1)^4 + 8925*(2*x3 - 2)*(2*x2 + x3 - 1)^4 + 25704*(2*x2 + x3 - 1)^5)/(32*x2 + 32*x3 - 32) - (22*x3 - 1)*(18*x1*(x2 + x3 - 1)^2 + 12*(x2 + x3 - 1)^3 - 15*(x2 + x3 - 1)*(2*x1 + x2 + x3 - 1)^2 - 5*(2*x1 + x2 + x3 - 1)^3)*(588*x2*(x3 - 1)^5 + 317*(x3 - 1)^6 - 1995*(x3 - 1)^4*(2*x2 + x3 - 1)^2 + 980*(x3 - 1)^3*(2*x2 + x3 - 1)^3 + 8925*(x3 - 1)^2*(2*x2 + x3 - 1)^4 - 14994*(x3 - 1)*(2*x2 + x3 - 1)^5 + 6783*(2*x2 + x3 - 1)^6)/(32*x2 + 32*x3 - 32) + 32*(22*x3 - 1)*(6*x1*(x2 + x3 - 1)^3 + 3*(x2 + x3 - 1)^4 - 5*(x2 + x3 - 1)*(2*x1 + x2 + x3 - 1)^3)*(588*x2*(x3 - 1)^5 + 317*(x3 - 1)^6 - 1995*(x3 - 1)^4*(2*x2 + x3 - 1)^2 + 980*(x3 - 1)^3*(2*x2 + x3 - 1)^3 + 8925*(x3 - 1)^2*(2*x2 + x3 - 1)^4 - 14994*(x3 - 1)*(2*x2 + x3 - 1)^5 + 6783*(2*x2 + x3 - 1)^6)/(32*x2 + 32*x3 - 32)^2 - 22*(6*x1*(x2 + x3 - 1)^3 + 3*(x2 + x3 - 1)^4 - 5*(x2 + x3 - 1)*(2*x1 + x2 + x3 - 1)^3)*(588*x2*(x3 - 1)^5 + 317*(x3 - 1)^6 - 1995*(x3 - 1)^4*(2*x2 + x3 - 1)^2 + 980*(x3 - 1)^3*(2*x2 + x3 - 1)^3 + 8925*(x3 - 1)^2*(2*x2 + x3 - 1)^4 - 14994*(x3 - 1)*(2*x2 + x3 - 1)^5 + 6783*(2*x2 + x3 - 1)^6)/(32*x2 + 32*x3 - 32);
  (-1)/32*(6*x1*(x2 + x3 - 1)^3 + 3*(x2 + x3 - 1)^4 - 5*(x2 + x3 - 1)*(2*x1 + x2 + x3 - 1)^3)*(4410*x2*(x3 - 1)^6 + 2176*(x3 - 1)^7 + 1155*(x3 - 1)^6*(4*x2 + 2*x3 - 2) - 16275*(x3 - 1)^5*(2*x2 + x3 - 1)^2 - 17255*(x3 - 1)^4*(2*x2 + x3 - 1)^3 + 123165*(x3 - 1)^3*(2*x2 + x3 - 1)^4 - 142443*(x3 - 1)^2*(2*x2 + x3 - 1)^5 + 101745*(x3 - 1)*(2*x2 + x3 - 1)^6 - 33915*(2*x3 - 2)*(2*x2 + x3 - 1)^6 + 14535*(2*x2 + x3 - 1)^7)/((x3 - 1)*(x2 + x3 - 1)) - 1/32*(18*x1*(x2 + x3 - 1)^2 + 12*(x2 + x3 - 1)^3 - 15*(x2 + x3 - 1)*(2*x1 + x2 + x3 - 1)^2 - 5*(2*x1 + x2 + x3 - 1)^3)*(630*x2*(x3 - 1)^7 + 272*(x3 - 1)^8 + 1155*(x3 - 1)^6*(2*x2 + x3 - 1)^2 - 7735*(x3 - 1)^5*(2*x2 + x3 - 1)^3 + 5355*(x3 - 1)^4*(2*x2 + x3 - 1)^4 + 20349*(x3 - 1)^3*(2*x2 + x3 - 1)^5 - 33915*(x3 - 1)^2*(2*x2 + x3 - 1)^6 + 14535*(x3 - 1)*(2*x2 + x3 - 1)^7)/((x3 - 1)*(x2 + x3 - 1)) + 1/32*(6*x1*(x2 + x3 - 1)^3 + 3*(x2 + x3 - 1)^4 - 5*(x2 + x3 - 1)*(2*x1 + x2 + x3 - 1)^3)*(630*x2*(x3 - 1)^7 + 272*(x3 - 1)^8 + 1155*(x3 - 1)^6*(2*x2 + x3 - 1)^2 - 7735*(x3 - 1)^5*(2*x2 + x3 - 1)^3 + 5355*(x3 - 1)^4*(2*x2 + x3 - 1)^4 + 20349*(x3 - 1)^3*(2*x2 + x3 - 1)^5 - 33915*(x3 - 1)^2*(2*x2 + x3 - 1)^6 + 14535*(x3 - 1)*(2*x2 + x3 - 1)^7)/((x3 - 1)*(x2 + x3 - 1)^2) + 1/32*(6*x1*(x2 + x3 - 1)^3 + 3*(x2 + x3 - 1)^4 - 5*(x2 + x3 - 1)*(2*x1 + x2 + x3 - 1)^3)*(630*x2*(x3 - 1)^7 + 272*(x3 - 1)^8 + 1155*(x3 - 1)^6*(2*x2 + x3 - 1)^2 - 7735*(x3 - 1)^5*(2*x2 + x3 - 1)^3 + 5355*(x3 - 1)^4*(2*x2 + x3 - 1)^4 + 20349*(x3 - 1)^3*(2*x2 + x3 - 1)^5 - 33915*(x3 - 1)^2*(2*x2 + x3 - 1)^6 + 14535*(x3 - 1)*(2*x2 + x3 - 1)^7)/((x3 - 1)^2*(x2 + x3 - 1));
  1/512*(3*(x2 + x3 - 1)^4 - 30*(x2 + x3 - 1)^2*(2*x1 + x2 + x3 - 1)^2 + 35*(2*x1 + x2 + x3 - 1)^4)*((-55080)*x3 + 895356*(2*x3 - 1)^5 + 2034900*(2*x3 - 1)^4 + 1511640*(2*x3 - 1)^3 + 348840*(2*x3 - 1)^2 + 16728) + 1/512*(12*(x2 + x3 - 1)^3 - 30*(x2 + x3 - 1)^2*(4*x1 + 2*x2 + 2*x3 - 2) - 30*(2*x2 + 2*x3 - 2)*(2*x1 + x2 + x3 - 1)^2 + 140*(2*x1 + x2 + x3 - 1)^3)*((-10812)*x3 + 74613*(2*x3 - 1)^6 + 203490*(2*x3 - 1)^5 + 188955*(2*x3 - 1)^4 + 58140*(2*x3 - 1)^3 - 6885*(2*x3 - 1)^2 + 5011);
  1/128*(11*x2 + x3 - 1)*(3*(x2 + x3 - 1)^4 - 30*(x2 + x3 - 1)^2*(2*x1 + x2 + x3 - 1)^2 + 35*(2*x1 + x2 + x3 - 1)^4)*(109440*x3 + 131670*(2*x3 - 1)^4 + 287280*(2*x3 - 1)^3 + 208620*(2*x3 - 1)^2 - 51570) + 1/128*(11*x2 + x3 - 1)*(12*(x2 + x3 - 1)^3 - 30*(x2 + x3 - 1)^2*(4*x1 + 2*x2 + 2*x3 - 2) - 30*(2*x2 + 2*x3 - 2)*(2*x1 + x2 + x3 - 1)^2 + 140*(2*x1 + x2 + x3 - 1)^3)*(3150*x3 + 13167*(2*x3 - 1)^5 + 35910*(2*x3 - 1)^4 + 34770*(2*x3 - 1)^3 + 13680*(2*x3 - 1)^2 - 1669) + 1/128*(3*(x2 + x3 - 1)^4 - 30*(x2 + x3 - 1)^2*(2*x1 + x2 + x3 - 1)^2 + 35*(2*x1 + x2 + x3 - 1)^4)*(3150*x3 + 13167*(2*x3 - 1)^5 + 35910*(2*x3 - 1)^4 + 34770*(2*x3 - 1)^3 + 13680*(2*x3 - 1)^2 - 1669);
  (-(108*x2*(x3 - 1)^2 + 37*(x3 - 1)^3 - 39*(x3 - 1)*(2*x2 + x3 - 1)^2))*(3*(x2 + x3 - 1)^4 - 30*(x2 + x3 - 1)^2*(2*x1 + x2 + x3 - 1)^2 + 35*(2*x1 + x2 + x3 - 1)^4)*(132240*x3 + 58520*(2*x3 - 1)^3 + 111720*(2*x3 - 1)^2 - 54416)/(256*x3 - 256) - (108*x2*(x3 - 1)^2 + 37*(x3 - 1)^3 - 39*(x3 - 1)*(2*x2 + x3 - 1)^2)*(12*(x2 + x3 - 1)^3 - 30*(x2 + x3 - 1)^2*(4*x1 + 2*x2 + 2*x3 - 2) - 30*(2*x2 + 2*x3 - 2)*(2*x1 + x2 + x3 - 1)^2 + 140*(2*x1 + x2 + x3 - 1)^3)*(11704*x3 + 7315*(2*x3 - 1)^4 + 18620*(2*x3 - 1)^3 + 16530*(2*x3 - 1)^2 - 5209)/(256*x3 - 256) - (3*(x2 + x3 - 1)^4 - 30*(x2 + x3 - 1)^2*(2*x1 + x2 + x3 - 1)^2 + 35*(2*x1 + x2 + x3 - 1)^4)*(108*x2*(2*x3 - 2) + 111*(x3 - 1)^2 - 39*(x3 - 1)*(4*x2 + 2*x3 - 2) - 39*(2*x2 + x3 - 1)^2)*(11704*x3 + 7315*(2*x3 - 1)^4 + 18620*(2*x3 - 1)^3 + 16530*(2*x3 - 1)^2 - 5209)/(256*x3 - 256) + 256*(108*x2*(x3 - 1)^2 + 37*(x3 - 1)^3 - 39*(x3 - 1)*(2*x2 + x3 - 1)^2)*(3*(x2 + x3 - 1)^4 - 30*(x2 + x3 - 1)^2*(2*x1 + x2 + x3 - 1)^2 + 35*(2*x1 + x2 + x3 - 1)^4)*(11704*x3 + 7315*(2*x3 - 1)^4 + 18620*(2*x3 - 1)^3 + 16530*(2*x3 - 1)^2 - 5209)/(256*x3 - 256)^2;
  1/128*(6720*x3 + 2310*(2*x3 - 1)^2 - 2190)*(3*(x2 + x3 - 1)^4 - 30*(x2 + x3 - 1)^2*(2*x1 + x2 + x3 - 1)^2 + 35*(2*x1 + x2 + x3 - 1)^4)*(858*x2*(x3 - 1)^3 - 819*(-x3 + 1)^2*((-2)*x2 - x3 + 1)^2 + 455*(-x3 + 1)*((-2)*x2 - x3 + 1)^3 + 372*(x3 - 1)^4)/(x3 - 1) + 1/128*(3*(x2 + x3 - 1)^4 - 30*(x2 + x3 - 1)^2*(2*x1 + x2 + x3 - 1)^2 + 35*(2*x1 + x2 + x3 - 1)^4)*(1170*x3 + 385*(2*x3 - 1)^3 + 840*(2*x3 - 1)^2 - 457)*(2574*x2*(x3 - 1)^2 - 819*(-x3 + 1)^2*(4*x2 + 2*x3 - 2) - 1365*(-x3 + 1)*((-2)*x2 - x3 + 1)^2 + 1488*(x3 - 1)^3 - 819*(2*x3 - 2)*((-2)*x2 - x3 + 1)^2 - 455*((-2)*x2 - x3 + 1)^3)/(x3 - 1) + 1/128*(1170*x3 + 385*(2*x3 - 1)^3 + 840*(2*x3 - 1)^2 - 457)*(858*x2*(x3 - 1)^3 - 819*(-x3 + 1)^2*((-2)*x2 - x3 + 1)^2 + 455*(-x3 + 1)*((-2)*x2 - x3 + 1)^3 + 372*(x3 - 1)^4)*(12*(x2 + x3 - 1)^3 - 30*(x2 + x3 - 1)^2*(4*x1 + 2*x2 + 2*x3 - 2) - 30*(2*x2 + 2*x3 - 2)*(2*x1 + x2 + x3 - 1)^2 + 140*(2*x1 + x2 + x3 - 1)^3)/(x3 - 1) - 1/128*(3*(x2 + x3 - 1)^4 - 30*(x2 + x3 - 1)^2*(2*x1 + x2 + x3 - 1)^2 + 35*(2*x1 + x2 + x3 - 1)^4)*(1170*x3 + 385*(2*x3 - 1)^3 + 840*(2*x3 - 1)^2 - 457)*(858*x2*(x3 - 1)^3 - 819*(-x3 + 1)^2*((-2)*x2 - x3 + 1)^2 + 455*(-x3 + 1)*((-2)*x2 - x3 + 1)^3 + 372*(x3 - 1)^4)/(x3 - 1)^2;
  1/128*(1848*x3 - 168)*(3*(x2 + x3 - 1)^4 - 30*(x2 + x3 - 1)^2*(2*x1 + x2 + x3 - 1)^2 + 35*(2*x1 + x2 + x3 - 1)^4)*((-336)*x2*(x3 - 1)^3 - 171*(x3 - 1)^4 + 840*(x3 - 1)^2*(2*x2 + x3 - 1)^2 - 1260*(x3 - 1)*(2*x2 + x3 - 1)^3 + 595*(2*x2 + x3 - 1)^4) + 1/128*(756*x3 + 231*(2*x3 - 1)^2 - 227)*(3*(x2 + x3 - 1)^4 - 30*(x2 + x3 - 1)^2*(2*x1 + x2 + x3 - 1)^2 + 35*(2*x1 + x2 + x3 - 1)^4)*((-1008)*x2*(x3 - 1)^2 - 684*(x3 - 1)^3 + 840*(x3 - 1)^2*(4*x2 + 2*x3 - 2) - 3780*(x3 - 1)*(2*x2 + x3 - 1)^2 + 840*(2*x3 - 2)*(2*x2 + x3 - 1)^2 + 1120*(2*x2 + x3 - 1)^3) + 1/128*(756*x3 + 231*(2*x3 - 1)^2 - 227)*(12*(x2 + x3 - 1)^3 - 30*(x2 + x3 - 1)^2*(4*x1 + 2*x2 + 2*x3 - 2) - 30*(2*x2 + 2*x3 - 2)*(2*x1 + x2 + x3 - 1)^2 + 140*(2*x1 + x2 + x3 - 1)^3)*((-336)*x2*(x3 - 1)^3 - 171*(x3 - 1)^4 + 840*(x3 - 1)^2*(2*x2 + x3 - 1)^2 - 1260*(x3 - 1)*(2*x2 + x3 - 1)^3 + 595*(2*x2 + x3 - 1)^4);
  (-(22*x3 - 1))*(3*(x2 + x3 - 1)^4 - 30*(x2 + x3 - 1)^2*(2*x1 + x2 + x3 - 1)^2 + 35*(2*x1 + x2 + x3 - 1)^4)*(1650*x2*(x3 - 1)^4 + 684*(x3 - 1)^5 + 1170*(x3 - 1)^4*(4*x2 + 2*x3 - 2) - 11130*(x3 - 1)^3*(2*x2 + x3 - 1)^2 + 11730*(x3 - 1)^2*(2*x2 + x3 - 1)^3 - 14535*(x3 - 1)*(2*x2 + x3 - 1)^4 + 6885*(2*x3 - 2)*(2*x2 + x3 - 1)^4 - 2907*(2*x2 + x3 - 1)^5)/(64*x3 - 64) - (22*x3 - 1)*(12*(x2 + x3 - 1)^3 - 30*(x2 + x3 - 1)^2*(4*x1 + 2*x2 + 2*x3 - 2) - 30*(2*x2 + 2*x3 - 2)*(2*x1 + x2 + x3 - 1)^2 + 140*(2*x1 + x2 + x3 - 1)^3)*(330*x2*(x3 - 1)^5 + 114*(x3 - 1)^6 + 1170*(x3 - 1)^4*(2*x2 + x3 - 1)^2 - 5270*(x3 - 1)^3*(2*x2 + x3 - 1)^3 + 6885*(x3 - 1)^2*(2*x2 + x3 - 1)^4 - 2907*(x3 - 1)*(2*x2 + x3 - 1)^5)/(64*x3 - 64) + 64*(22*x3 - 1)*(3*(x2 + x3 - 1)^4 - 30*(x2 + x3 - 1)^2*(2*x1 + x2 + x3 - 1)^2 + 35*(2*x1 + x2 + x3 - 1)^4)*(330*x2*(x3 - 1)^5 + 114*(x3 - 1)^6 + 1170*(x3 - 1)^4*(2*x2 + x3 - 1)^2 - 5270*(x3 - 1)^3*(2*x2 + x3 - 1)^3 + 6885*(x3 - 1)^2*(2*x2 + x3 - 1)^4 - 2907*(x3 - 1)*(2*x2 + x3 - 1)^5)/(64*x3 - 64)^2 - 22*(3*(x2 + x3 - 1)^4 - 30*(x2 + x3 - 1)^2*(2*x1 + x2 + x3 - 1)^2 + 35*(2*x1 + x2 + x3 - 1)^4)*(330*x2*(x3 - 1)^5 + 114*(x3 - 1)^6 + 1170*(x3 - 1)^4*(2*x2 + x3 - 1)^2 - 5270*(x3 - 1)^3*(2*x2 + x3 - 1)^3 + 6885*(x3 - 1)^2*(2*x2 + x3 - 1)^4 - 2907*(x3 - 1)*(2*x2 + x3 - 1)^5)/(64*x3 - 64);
  1/64*(3*(x2 + x3 - 1)^4 - 30*(x2 + x3 - 1)^2*(2*x1 + x2 + x3 - 1)^2 + 35*(2*x1 + x2 + x3 - 1)^4)*(4860*x2*(x3 - 1)^4 + 2802*(x3 - 1)^5 - 1275*(x3 - 1)^4*(4*x2 + 2*x3 - 2) - 14280*(x3 - 1)^3*(2*x2 + x3 - 1)^2 + 48960*(x3 - 1)^2*(2*x2 + x3 - 1)^3 - 87210*(x3 - 1)*(2*x2 + x3 - 1)^4 + 14535*(2*x3 - 2)*(2*x2 + x3 - 1)^4 + 23256*(2*x2 + x3 - 1)^5) + 1/64*(12*(x2 + x3 - 1)^3 - 30*(x2 + x3 - 1)^2*(4*x1 + 2*x2 + 2*x3 - 2) - 30*(2*x2 + 2*x3 - 2)*(2*x1 + x2 + x3 - 1)^2 + 140*(2*x1 + x2 + x3 - 1)^3)*(972*x2*(x3 - 1)^5 + 467*(x3 - 1)^6 - 1275*(x3 - 1)^4*(2*x2 + x3 - 1)^2 - 3060*(x3 - 1)^3*(2*x2 + x3 - 1)^3 + 14535*(x3 - 1)^2*(2*x2 + x3 - 1)^4 - 17442*(x3 - 1)*(2*x2 + x3 - 1)^5 + 6783*(2*x2 + x3 - 1)^6);
  1/128*(30*x1*(x2 + x3 - 1)^5 + 63*(-x2 - x3 + 1)*((-2)*x1 - x2 - x3 + 1)^5 + 15*(x2 + x3 - 1)^6 + 70*(x2 + x3 - 1)^3*((-2)*x1 - x2 - x3 + 1)^3)*(109440*x3 + 131670*(2*x3 - 1)^4 + 287280*(2*x3 - 1)^3 + 208620*(2*x3 - 1)^2 - 51570)/(x2 + x3 - 1) + 1/128*(3150*x3 + 13167*(2*x3 - 1)^5 + 35910*(2*x3 - 1)^4 + 34770*(2*x3 - 1)^3 + 13680*(2*x3 - 1)^2 - 1669)*(150*x1*(x2 + x3 - 1)^4 - 315*(-x2 - x3 + 1)*((-2)*x1 - x2 - x3 + 1)^4 + 90*(x2 + x3 - 1)^5 - 210*(x2 + x3 - 1)^3*((-2)*x1 - x2 - x3 + 1)^2 + 210*(x2 + x3 - 1)^2*((-2)*x1 - x2 - x3 + 1)^3 - 63*((-2)*x1 - x2 - x3 + 1)^5)/(x2 + x3 - 1) - 1/128*(30*x1*(x2 + x3 - 1)^5 + 63*(-x2 - x3 + 1)*((-2)*x1 - x2 - x3 + 1)^5 + 15*(x2 + x3 - 1)^6 + 70*(x2 + x3 - 1)^3*((-2)*x1 - x2 - x3 + 1)^3)*(3150*x3 + 13167*(2*x3 - 1)^5 + 35910*(2*x3 - 1)^4 + 34770*(2*x3 - 1)^3 + 13680*(2*x3 - 1)^2 - 1669)/(x2 + x3 - 1)^2;
  1/128*(13*x2 + x3 - 1)*(132240*x3 + 58520*(2*x3 - 1)^3 + 111720*(2*x3 - 1)^2 - 54416)*(30*x1*(x2 + x3 - 1)^5 + 63*(-x2 - x3 + 1)*((-2)*x1 - x2 - x3 + 1)^5 + 15*(x2 + x3 - 1)^6 + 70*(x2 + x3 - 1)^3*((-2)*x1 - x2 - x3 + 1)^3)/(x2 + x3 - 1) + 1/128*(13*x2 + x3 - 1)*(11704*x3 + 7315*(2*x3 - 1)^4 + 18620*(2*x3 - 1)^3 + 16530*(2*x3 - 1)^2 - 5209)*(150*x1*(x2 + x3 - 1)^4 - 315*(-x2 - x3 + 1)*((-2)*x1 - x2 - x3 + 1)^4 + 90*(x2 + x3 - 1)^5 - 210*(x2 + x3 - 1)^3*((-2)*x1 - x2 - x3 + 1)^2 + 210*(x2 + x3 - 1)^2*((-2)*x1 - x2 - x3 + 1)^3 - 63*((-2)*x1 - x2 - x3 + 1)^5)/(x2 + x3 - 1) + 1/128*(30*x1*(x2 + x3 - 1)^5 + 63*(-x2 - x3 + 1)*((-2)*x1 - x2 - x3 + 1)^5 + 15*(x2 + x3 - 1)^6 + 70*(x2 + x3 - 1)^3*((-2)*x1 - x2 - x3 + 1)^3)*(11704*x3 + 7315*(2*x3 - 1)^4 + 18620*(2*x3 - 1)^3 + 16530*(2*x3 - 1)^2 - 5209)/(x2 + x3 - 1) - 1/128*(13*x2 + x3 - 1)*(30*x1*(x2 + x3 - 1)^5 + 63*(-x2 - x3 + 1)*((-2)*x1 - x2 - x3 + 1)^5 + 15*(x2 + x3 - 1)^6 + 70*(x2 + x3 - 1)^3*((-2)*x1 - x2 - x3 + 1)^3)*(11704*x3 + 7315*(2*x3 - 1)^4 + 18620*(2*x3 - 1)^3 + 16530*(2*x3 - 1)^2 - 5209)/(x2 + x3 - 1)^2;
  (-1)/64*(6720*x3 + 2310*(2*x3 - 1)^2 - 2190)*(308*x2*(x3 - 1)^2 + 101*(x3 - 1)^3 - 105*(x3 - 1)*(2*x2 + x3 - 1)^2)*(30*x1*(x2 + x3 - 1)^5 + 15*(x2 + x3 - 1)^6 - 70*(x2 + x3 - 1)^3*(2*x1 + x2 + x3 - 1)^3 + 63*(x2 + x3 - 1)*(2*x1 + x2 + x3 - 1)^5)/((x3 - 1)*(x2 + x3 - 1)) - 1/64*(308*x2*(x3 - 1)^2 + 101*(x3 - 1)^3 - 105*(x3 - 1)*(2*x2 + x3 - 1)^2)*(1170*x3 + 385*(2*x3 - 1)^3 + 840*(2*x3 - 1)^2 - 457)*(150*x1*(x2 + x3 - 1)^4 + 90*(x2 + x3 - 1)^5 - 210*(x2 + x3 - 1)^3*(2*x1 + x2 + x3 - 1)^2 - 210*(x2 + x3 - 1)^2*(2*x1 + x2 + x3 - 1)^3 + 315*(x2 + x3 - 1)*(2*x1 + x2 + x3 - 1)^4 + 63*(2*x1 + x2 + x3 - 1)^5)/((x3 - 1)*(x2 + x3 - 1)) - 1/64*(1170*x3 + 385*(2*x3 - 1)^3 + 840*(2*x3 - 1)^2 - 457)*(30*x1*(x2 + x3 - 1)^5 + 15*(x2 + x3 - 1)^6 - 70*(x2 + x3 - 1)^3*(2*x1 + x2 + x3 - 1)^3 + 63*(x2 + x3 - 1)*(2*x1 + x2 + x3 - 1)^5)*(308*x2*(2*x3 - 2) + 303*(x3 - 1)^2 - 105*(x3 - 1)*(4*x2 + 2*x3 - 2) - 105*(2*x2 + x3 - 1)^2)/((x3 - 1)*(x2 + x3 - 1)) + 1/64*(308*x2*(x3 - 1)^2 + 101*(x3 - 1)^3 - 105*(x3 - 1)*(2*x2 + x3 - 1)^2)*(1170*x3 + 385*(2*x3 - 1)^3 + 840*(2*x3 - 1)^2 - 457)*(30*x1*(x2 + x3 - 1)^5 + 15*(x2 + x3 - 1)^6 - 70*(x2 + x3 - 1)^3*(2*x1 + x2 + x3 - 1)^3 + 63*(x2 + x3 - 1)*(2*x1 + x2 + x3 - 1)^5)/((x3 - 1)*(x2 + x3 - 1)^2) + 1/64*(308*x2*(x3 - 1)^2 + 101*(x3 - 1)^3 - 105*(x3 - 1)*(2*x2 + x3 - 1)^2)*(1170*x3 + 385*(2*x3 - 1)^3 + 840*(2*x3 - 1)^2 - 457)*(30*x1*(x2 + x3 - 1)^5 + 15*(x2 + x3 - 1)^6 - 70*(x2 + x3 - 1)^3*(2*x1 + x2 + x3 - 1)^3 + 63*(x2 + x3 - 1)*(2*x1 + x2 + x3 - 1)^5)/((x3 - 1)^2*(x2 + x3 - 1));
  1/32*(1848*x3 - 168)*(30*x1*(x2 + x3 - 1)^5 + 63*(-x2 - x3 + 1)*((-2)*x1 - x2 - x3 + 1)^5 + 15*(x2 + x3 - 1)^6 + 70*(x2 + x3 - 1)^3*((-2)*x1 - x2 - x3 + 1)^3)*(195*x2*(x3 - 1)^2 + 81*(x3 - 1)^3 - 165*(x3 - 1)*((-2)*x2 - x3 + 1)^2 - 85*((-2)*x2 - x3 + 1)^3)/(x2 + x3 - 1) + 1/32*(756*x3 + 231*(2*x3 - 1)^2 - 227)*(30*x1*(x2 + x3 - 1)^5 + 63*(-x2 - x3 + 1)*((-2)*x1 - x2 - x3 + 1)^5 + 15*(x2 + x3 - 1)^6 + 70*(x2 + x3 - 1)^3*((-2)*x1 - x2 - x3 + 1)^3)*(195*x2*(2*x3 - 2) + 243*(x3 - 1)^2 - 165*(x3 - 1)*(4*x2 + 2*x3 - 2) + 90*((-2)*x2 - x3 + 1)^2)/(x2 + x3 - 1) + 1/32*(756*x3 + 231*(2*x3 - 1)^2 - 227)*(195*x2*(x3 - 1)^2 + 81*(x3 - 1)^3 - 165*(x3 - 1)*((-2)*x2 - x3 + 1)^2 - 85*((-2)*x2 - x3 + 1)^3)*(150*x1*(x2 + x3 - 1)^4 - 315*(-x2 - x3 + 1)*((-2)*x1 - x2 - x3 + 1)^4 + 90*(x2 + x3 - 1)^5 - 210*(x2 + x3 - 1)^3*((-2)*x1 - x2 - x3 + 1)^2 + 210*(x2 + x3 - 1)^2*((-2)*x1 - x2 - x3 + 1)^3 - 63*((-2)*x1 - x2 - x3 + 1)^5)/(x2 + x3 - 1) - 1/32*(756*x3 + 231*(2*x3 - 1)^2 - 227)*(30*x1*(x2 + x3 - 1)^5 + 63*(-x2 - x3 + 1)*((-2)*x1 - x2 - x3 + 1)^5 + 15*(x2 + x3 - 1)^6 + 70*(x2 + x3 - 1)^3*((-2)*x1 - x2 - x3 + 1)^3)*(195*x2*(x3 - 1)^2 + 81*(x3 - 1)^3 - 165*(x3 - 1)*((-2)*x2 - x3 + 1)^2 - 85*((-2)*x2 - x3 + 1)^3)/(x2 + x3 - 1)^2;
  1/32*(22*x3 - 1)*(30*x1*(x2 + x3 - 1)^5 + 63*(-x2 - x3 + 1)*((-2)*x1 - x2 - x3 + 1)^5 + 15*(x2 + x3 - 1)^6 + 70*(x2 + x3 - 1)^3*((-2)*x1 - x2 - x3 + 1)^3)*((-2904)*x2*(x3 - 1)^2 - 1820*(x3 - 1)^3 + 1734*(x3 - 1)^2*(4*x2 + 2*x3 - 2) - 6732*(x3 - 1)*(2*x2 + x3 - 1)^2 + 1734*(2*x3 - 2)*(2*x2 + x3 - 1)^2 + 1632*(2*x2 + x3 - 1)^3)/(x2 + x3 - 1) + 1/32*(22*x3 - 1)*((-968)*x2*(x3 - 1)^3 - 455*(x3 - 1)^4 + 1734*(x3 - 1)^2*(2*x2 + x3 - 1)^2 - 2244*(x3 - 1)*(2*x2 + x3 - 1)^3 + 969*(2*x2 + x3 - 1)^4)*(150*x1*(x2 + x3 - 1)^4 - 315*(-x2 - x3 + 1)*((-2)*x1 - x2 - x3 + 1)^4 + 90*(x2 + x3 - 1)^5 - 210*(x2 + x3 - 1)^3*((-2)*x1 - x2 - x3 + 1)^2 + 210*(x2 + x3 - 1)^2*((-2)*x1 - x2 - x3 + 1)^3 - 63*((-2)*x1 - x2 - x3 + 1)^5)/(x2 + x3 - 1) - 1/32*(22*x3 - 1)*(30*x1*(x2 + x3 - 1)^5 + 63*(-x2 - x3 + 1)*((-2)*x1 - x2 - x3 + 1)^5 + 15*(x2 + x3 - 1)^6 + 70*(x2 + x3 - 1)^3*((-2)*x1 - x2 - x3 + 1)^3)*((-968)*x2*(x3 - 1)^3 - 455*(x3 - 1)^4 + 1734*(x3 - 1)^2*(2*x2 + x3 - 1)^2 - 2244*(x3 - 1)*(2*x2 + x3 - 1)^3 + 969*(2*x2 + x3 - 1)^4)/(x2 + x3 - 1)^2 + 11/16*(30*x1*(x2 + x3 - 1)^5 + 63*(-x2 - x3 + 1)*((-2)*x1 - x2 - x3 + 1)^5 + 15*(x2 + x3 - 1)^6 + 70*(x2 + x3 - 1)^3*((-2)*x1 - x2 - x3 + 1)^3)*((-968)*x2*(x3 - 1)^3 - 455*(x3 - 1)^4 + 1734*(x3 - 1)^2*(2*x2 + x3 - 1)^2 - 2244*(x3 - 1)*(2*x2 + x3 - 1)^3 + 969*(2*x2 + x3 - 1)^4)/(x2 + x3 - 1);
  1/256*(30*x1*(x2 + x3 - 1)^5 + 15*(x2 + x3 - 1)^6 - 70*(x2 + x3 - 1)^3*(2*x1 + x2 + x3 - 1)^3 + 63*(x2 + x3 - 1)*(2*x1 + x2 + x3 - 1)^5)*(11050*x2*(x3 - 1)^4 + 8148*(x3 - 1)^5 - 16830*(x3 - 1)^4*(4*x2 + 2*x3 - 2) + 78030*(x3 - 1)^3*(2*x2 + x3 - 1)^2 - 67830*(x3 - 1)^2*(2*x2 + x3 - 1)^3 + 101745*(x3 - 1)*(2*x2 + x3 - 1)^4 - 53295*(2*x3 - 2)*(2*x2 + x3 - 1)^4 + 20349*(2*x2 + x3 - 1)^5)/((x3 - 1)*(x2 + x3 - 1)) + 1/256*(150*x1*(x2 + x3 - 1)^4 + 90*(x2 + x3 - 1)^5 - 210*(x2 + x3 - 1)^3*(2*x1 + x2 + x3 - 1)^2 - 210*(x2 + x3 - 1)^2*(2*x1 + x2 + x3 - 1)^3 + 315*(x2 + x3 - 1)*(2*x1 + x2 + x3 - 1)^4 + 63*(2*x1 + x2 + x3 - 1)^5)*(2210*x2*(x3 - 1)^5 + 1358*(x3 - 1)^6 - 16830*(x3 - 1)^4*(2*x2 + x3 - 1)^2 + 48450*(x3 - 1)^3*(2*x2 + x3 - 1)^3 - 53295*(x3 - 1)^2*(2*x2 + x3 - 1)^4 + 20349*(x3 - 1)*(2*x2 + x3 - 1)^5)/((x3 - 1)*(x2 + x3 - 1)) - 1/256*(30*x1*(x2 + x3 - 1)^5 + 15*(x2 + x3 - 1)^6 - 70*(x2 + x3 - 1)^3*(2*x1 + x2 + x3 - 1)^3 + 63*(x2 + x3 - 1)*(2*x1 + x2 + x3 - 1)^5)*(2210*x2*(x3 - 1)^5 + 1358*(x3 - 1)^6 - 16830*(x3 - 1)^4*(2*x2 + x3 - 1)^2 + 48450*(x3 - 1)^3*(2*x2 + x3 - 1)^3 - 53295*(x3 - 1)^2*(2*x2 + x3 - 1)^4 + 20349*(x3 - 1)*(2*x2 + x3 - 1)^5)/((x3 - 1)*(x2 + x3 - 1)^2) - 1/256*(30*x1*(x2 + x3 - 1)^5 + 15*(x2 + x3 - 1)^6 - 70*(x2 + x3 - 1)^3*(2*x1 + x2 + x3 - 1)^3 + 63*(x2 + x3 - 1)*(2*x1 + x2 + x3 - 1)^5)*(2210*x2*(x3 - 1)^5 + 1358*(x3 - 1)^6 - 16830*(x3 - 1)^4*(2*x2 + x3 - 1)^2 + 48450*(x3 - 1)^3*(2*x2 + x3 - 1)^3 - 53295*(x3 - 1)^2*(2*x2 + x3 - 1)^4 + 20349*(x3 - 1)*(2*x2 + x3 - 1)^5)/((x3 - 1)^2*(x2 + x3 - 1));
  1/256*(132240*x3 + 58520*(2*x3 - 1)^3 + 111720*(2*x3 - 1)^2 - 54416)*((-5)*(x2 + x3 - 1)^6 + 105*(x2 + x3 - 1)^4*(2*x1 + x2 + x3 - 1)^2 - 315*(x2 + x3 - 1)^2*(2*x1 + x2 + x3 - 1)^4 + 231*(2*x1 + x2 + x3 - 1)^6) + 1/256*(11704*x3 + 7315*(2*x3 - 1)^4 + 18620*(2*x3 - 1)^3 + 16530*(2*x3 - 1)^2 - 5209)*((-30)*(x2 + x3 - 1)^5 + 105*(x2 + x3 - 1)^4*(4*x1 + 2*x2 + 2*x3 - 2) + 420*(x2 + x3 - 1)^3*(2*x1 + x2 + x3 - 1)^2 - 1260*(x2 + x3 - 1)^2*(2*x1 + x2 + x3 - 1)^3 - 315*(2*x2 + 2*x3 - 2)*(2*x1 + x2 + x3 - 1)^4 + 1386*(2*x1 + x2 + x3 - 1)^5);
  1/32*(15*x2 + x3 - 1)*(6720*x3 + 2310*(2*x3 - 1)^2 - 2190)*((-5)*(x2 + x3 - 1)^6 + 105*(x2 + x3 - 1)^4*(2*x1 + x2 + x3 - 1)^2 - 315*(x2 + x3 - 1)^2*(2*x1 + x2 + x3 - 1)^4 + 231*(2*x1 + x2 + x3 - 1)^6) + 1/32*(15*x2 + x3 - 1)*(1170*x3 + 385*(2*x3 - 1)^3 + 840*(2*x3 - 1)^2 - 457)*((-30)*(x2 + x3 - 1)^5 + 105*(x2 + x3 - 1)^4*(4*x1 + 2*x2 + 2*x3 - 2) + 420*(x2 + x3 - 1)^3*(2*x1 + x2 + x3 - 1)^2 - 1260*(x2 + x3 - 1)^2*(2*x1 + x2 + x3 - 1)^3 - 315*(2*x2 + 2*x3 - 2)*(2*x1 + x2 + x3 - 1)^4 + 1386*(2*x1 + x2 + x3 - 1)^5) + 1/32*(1170*x3 + 385*(2*x3 - 1)^3 + 840*(2*x3 - 1)^2 - 457)*((-5)*(x2 + x3 - 1)^6 + 105*(x2 + x3 - 1)^4*(2*x1 + x2 + x3 - 1)^2 - 315*(x2 + x3 - 1)^2*(2*x1 + x2 + x3 - 1)^4 + 231*(2*x1 + x2 + x3 - 1)^6);
  (1848*x3 - 168)*(104*x2*(x3 - 1)^2 + 33*(x3 - 1)^3 - 34*(x3 - 1)*(2*x2 + x3 - 1)^2)*(5*(x2 + x3 - 1)^6 - 105*(x2 + x3 - 1)^4*(2*x1 + x2 + x3 - 1)^2 + 315*(x2 + x3 - 1)^2*(2*x1 + x2 + x3 - 1)^4 - 231*(2*x1 + x2 + x3 - 1)^6)/(64*x3 - 64) + (756*x3 + 231*(2*x3 - 1)^2 - 227)*(104*x2*(x3 - 1)^2 + 33*(x3 - 1)^3 - 34*(x3 - 1)*(2*x2 + x3 - 1)^2)*(30*(x2 + x3 - 1)^5 - 105*(x2 + x3 - 1)^4*(4*x1 + 2*x2 + 2*x3 - 2) - 420*(x2 + x3 - 1)^3*(2*x1 + x2 + x3 - 1)^2 + 1260*(x2 + x3 - 1)^2*(2*x1 + x2 + x3 - 1)^3 + 315*(2*x2 + 2*x3 - 2)*(2*x1 + x2 + x3 - 1)^4 - 1386*(2*x1 + x2 + x3 - 1)^5)/(64*x3 - 64) + (756*x3 + 231*(2*x3 - 1)^2 - 227)*(104*x2*(2*x3 - 2) + 99*(x3 - 1)^2 - 34*(x3 - 1)*(4*x2 + 2*x3 - 2) - 34*(2*x2 + x3 - 1)^2)*(5*(x2 + x3 - 1)^6 - 105*(x2 + x3 - 1)^4*(2*x1 + x2 + x3 - 1)^2 + 315*(x2 + x3 - 1)^2*(2*x1 + x2 + x3 - 1)^4 - 231*(2*x1 + x2 + x3 - 1)^6)/(64*x3 - 64) - 64*(756*x3 + 231*(2*x3 - 1)^2 - 227)*(104*x2*(x3 - 1)^2 + 33*(x3 - 1)^3 - 34*(x3 - 1)*(2*x2 + x3 - 1)^2)*(5*(x2 + x3 - 1)^6 - 105*(x2 + x3 - 1)^4*(2*x1 + x2 + x3 - 1)^2 + 315*(x2 + x3 - 1)^2*(2*x1 + x2 + x3 - 1)^4 - 231*(2*x1 + x2 + x3 - 1)^6)/(64*x3 - 64)^2;
  1/128*(22*x3 - 1)*(2550*x2*(x3 - 1)^3 - 1989*(-x3 + 1)^2*((-2)*x2 - x3 + 1)^2 + 969*(-x3 + 1)*((-2)*x2 - x3 + 1)^3 + 1028*(x3 - 1)^4)*((-30)*(x2 + x3 - 1)^5 + 105*(x2 + x3 - 1)^4*(4*x1 + 2*x2 + 2*x3 - 2) + 420*(x2 + x3 - 1)^3*(2*x1 + x2 + x3 - 1)^2 - 1260*(x2 + x3 - 1)^2*(2*x1 + x2 + x3 - 1)^3 - 315*(2*x2 + 2*x3 - 2)*(2*x1 + x2 + x3 - 1)^4 + 1386*(2*x1 + x2 + x3 - 1)^5)/(x3 - 1) + 1/128*(22*x3 - 1)*((-5)*(x2 + x3 - 1)^6 + 105*(x2 + x3 - 1)^4*(2*x1 + x2 + x3 - 1)^2 - 315*(x2 + x3 - 1)^2*(2*x1 + x2 + x3 - 1)^4 + 231*(2*x1 + x2 + x3 - 1)^6)*(7650*x2*(x3 - 1)^2 - 1989*(-x3 + 1)^2*(4*x2 + 2*x3 - 2) - 2907*(-x3 + 1)*((-2)*x2 - x3 + 1)^2 + 4112*(x3 - 1)^3 - 1989*(2*x3 - 2)*((-2)*x2 - x3 + 1)^2 - 969*((-2)*x2 - x3 + 1)^3)/(x3 - 1) + 11/64*(2550*x2*(x3 - 1)^3 - 1989*(-x3 + 1)^2*((-2)*x2 - x3 + 1)^2 + 969*(-x3 + 1)*((-2)*x2 - x3 + 1)^3 + 1028*(x3 - 1)^4)*((-5)*(x2 + x3 - 1)^6 + 105*(x2 + x3 - 1)^4*(2*x1 + x2 + x3 - 1)^2 - 315*(x2 + x3 - 1)^2*(2*x1 + x2 + x3 - 1)^4 + 231*(2*x1 + x2 + x3 - 1)^6)/(x3 - 1) - 1/128*(22*x3 - 1)*(2550*x2*(x3 - 1)^3 - 1989*(-x3 + 1)^2*((-2)*x2 - x3 + 1)^2 + 969*(-x3 + 1)*((-2)*x2 - x3 + 1)^3 + 1028*(x3 - 1)^4)*((-5)*(x2 + x3 - 1)^6 + 105*(x2 + x3 - 1)^4*(2*x1 + x2 + x3 - 1)^2 - 315*(x2 + x3 - 1)^2*(2*x1 + x2 + x3 - 1)^4 + 231*(2*x1 + x2 + x3 - 1)^6)/(x3 - 1)^2;
  1/256*((-5)*(x2 + x3 - 1)^6 + 105*(x2 + x3 - 1)^4*(2*x1 + x2 + x3 - 1)^2 - 315*(x2 + x3 - 1)^2*(2*x1 + x2 + x3 - 1)^4 + 231*(2*x1 + x2 + x3 - 1)^6)*((-25272)*x2*(x3 - 1)^2 - 15212*(x3 - 1)^3 + 12654*(x3 - 1)^2*(4*x2 + 2*x3 - 2) - 44460*(x3 - 1)*(2*x2 + x3 - 1)^2 + 12654*(2*x3 - 2)*(2*x2 + x3 - 1)^2 + 9120*(2*x2 + x3 - 1)^3) + 1/256*((-8424)*x2*(x3 - 1)^3 - 3803*(x3 - 1)^4 + 12654*(x3 - 1)^2*(2*x2 + x3 - 1)^2 - 14820*(x3 - 1)*(2*x2 + x3 - 1)^3 + 5985*(2*x2 + x3 - 1)^4)*((-30)*(x2 + x3 - 1)^5 + 105*(x2 + x3 - 1)^4*(4*x1 + 2*x2 + 2*x3 - 2) + 420*(x2 + x3 - 1)^3*(2*x1 + x2 + x3 - 1)^2 - 1260*(x2 + x3 - 1)^2*(2*x1 + x2 + x3 - 1)^3 - 315*(2*x2 + 2*x3 - 2)*(2*x1 + x2 + x3 - 1)^4 + 1386*(2*x1 + x2 + x3 - 1)^5);
  (-(6720*x3 + 2310*(2*x3 - 1)^2 - 2190))*(70*x1*(x2 + x3 - 1)^7 + 35*(x2 + x3 - 1)^8 - 315*(x2 + x3 - 1)^5*(2*x1 + x2 + x3 - 1)^3 + 693*(x2 + x3 - 1)^3*(2*x1 + x2 + x3 - 1)^5 - 429*(x2 + x3 - 1)*(2*x1 + x2 + x3 - 1)^7)/(32*x2 + 32*x3 - 32) - (1170*x3 + 385*(2*x3 - 1)^3 + 840*(2*x3 - 1)^2 - 457)*(490*x1*(x2 + x3 - 1)^6 + 280*(x2 + x3 - 1)^7 - 945*(x2 + x3 - 1)^5*(2*x1 + x2 + x3 - 1)^2 - 1575*(x2 + x3 - 1)^4*(2*x1 + x2 + x3 - 1)^3 + 3465*(x2 + x3 - 1)^3*(2*x1 + x2 + x3 - 1)^4 + 2079*(x2 + x3 - 1)^2*(2*x1 + x2 + x3 - 1)^5 - 3003*(x2 + x3 - 1)*(2*x1 + x2 + x3 - 1)^6 - 429*(2*x1 + x2 + x3 - 1)^7)/(32*x2 + 32*x3 - 32) + 32*(1170*x3 + 385*(2*x3 - 1)^3 + 840*(2*x3 - 1)^2 - 457)*(70*x1*(x2 + x3 - 1)^7 + 35*(x2 + x3 - 1)^8 - 315*(x2 + x3 - 1)^5*(2*x1 + x2 + x3 - 1)^3 + 693*(x2 + x3 - 1)^3*(2*x1 + x2 + x3 - 1)^5 - 429*(x2 + x3 - 1)*(2*x1 + x2 + x3 - 1)^7)/(32*x2 + 32*x3 - 32)^2;
  (-(1848*x3 - 168))*(17*x2 + x3 - 1)*(70*x1*(x2 + x3 - 1)^7 + 35*(x2 + x3 - 1)^8 - 315*(x2 + x3 - 1)^5*(2*x1 + x2 + x3 - 1)^3 + 693*(x2 + x3 - 1)^3*(2*x1 + x2 + x3 - 1)^5 - 429*(x2 + x3 - 1)*(2*x1 + x2 + x3 - 1)^7)/(64*x2 + 64*x3 - 64) - (17*x2 + x3 - 1)*(756*x3 + 231*(2*x3 - 1)^2 - 227)*(490*x1*(x2 + x3 - 1)^6 + 280*(x2 + x3 - 1)^7 - 945*(x2 + x3 - 1)^5*(2*x1 + x2 + x3 - 1)^2 - 1575*(x2 + x3 - 1)^4*(2*x1 + x2 + x3 - 1)^3 + 3465*(x2 + x3 - 1)^3*(2*x1 + x2 + x3 - 1)^4 + 2079*(x2 + x3 - 1)^2*(2*x1 + x2 + x3 - 1)^5 - 3003*(x2 + x3 - 1)*(2*x1 + x2 + x3 - 1)^6 - 429*(2*x1 + x2 + x3 - 1)^7)/(64*x2 + 64*x3 - 64) + 64*(17*x2 + x3 - 1)*(756*x3 + 231*(2*x3 - 1)^2 - 227)*(70*x1*(x2 + x3 - 1)^7 + 35*(x2 + x3 - 1)^8 - 315*(x2 + x3 - 1)^5*(2*x1 + x2 + x3 - 1)^3 + 693*(x2 + x3 - 1)^3*(2*x1 + x2 + x3 - 1)^5 - 429*(x2 + x3 - 1)*(2*x1 + x2 + x3 - 1)^7)/(64*x2 + 64*x3 - 64)^2 - (756*x3 + 231*(2*x3 - 1)^2 - 227)*(70*x1*(x2 + x3 - 1)^7 + 35*(x2 + x3 - 1)^8 - 315*(x2 + x3 - 1)^5*(2*x1 + x2 + x3 - 1)^3 + 693*(x2 + x3 - 1)^3*(2*x1 + x2 + x3 - 1)^5 - 429*(x2 + x3 - 1)*(2*x1 + x2 + x3 - 1)^7)/(64*x2 + 64*x3 - 64);
  1/64*(22*x3 - 1)*(540*x2*(x3 - 1)^2 + 171*(-x3 + 1)*((-2)*x2 - x3 + 1)^2 + 167*(x3 - 1)^3)*(490*x1*(x2 + x3 - 1)^6 + 945*(-x2 - x3 + 1)^5*(2*x1 + x2 + x3 - 1)^2 - 1575*(-x2 - x3 + 1)^4*(2*x1 + x2 + x3 - 1)^3 + 3003*(-x2 - x3 + 1)*(2*x1 + x2 + x3 - 1)^6 + 280*(x2 + x3 - 1)^7 + 3465*(x2 + x3 - 1)^3*(2*x1 + x2 + x3 - 1)^4 + 2079*(x2 + x3 - 1)^2*(2*x1 + x2 + x3 - 1)^5 - 429*(2*x1 + x2 + x3 - 1)^7)/((x3 - 1)*(x2 + x3 - 1)) + 1/64*(22*x3 - 1)*(540*x2*(2*x3 - 2) + 171*(-x3 + 1)*(4*x2 + 2*x3 - 2) + 501*(x3 - 1)^2 - 171*((-2)*x2 - x3 + 1)^2)*(70*x1*(x2 + x3 - 1)^7 + 315*(-x2 - x3 + 1)^5*(2*x1 + x2 + x3 - 1)^3 + 429*(-x2 - x3 + 1)*(2*x1 + x2 + x3 - 1)^7 + 35*(x2 + x3 - 1)^8 + 693*(x2 + x3 - 1)^3*(2*x1 + x2 + x3 - 1)^5)/((x3 - 1)*(x2 + x3 - 1)) - 1/64*(22*x3 - 1)*(540*x2*(x3 - 1)^2 + 171*(-x3 + 1)*((-2)*x2 - x3 + 1)^2 + 167*(x3 - 1)^3)*(70*x1*(x2 + x3 - 1)^7 + 315*(-x2 - x3 + 1)^5*(2*x1 + x2 + x3 - 1)^3 + 429*(-x2 - x3 + 1)*(2*x1 + x2 + x3 - 1)^7 + 35*(x2 + x3 - 1)^8 + 693*(x2 + x3 - 1)^3*(2*x1 + x2 + x3 - 1)^5)/((x3 - 1)*(x2 + x3 - 1)^2) + 11/32*(540*x2*(x3 - 1)^2 + 171*(-x3 + 1)*((-2)*x2 - x3 + 1)^2 + 167*(x3 - 1)^3)*(70*x1*(x2 + x3 - 1)^7 + 315*(-x2 - x3 + 1)^5*(2*x1 + x2 + x3 - 1)^3 + 429*(-x2 - x3 + 1)*(2*x1 + x2 + x3 - 1)^7 + 35*(x2 + x3 - 1)^8 + 693*(x2 + x3 - 1)^3*(2*x1 + x2 + x3 - 1)^5)/((x3 - 1)*(x2 + x3 - 1)) - 1/64*(22*x3 - 1)*(540*x2*(x3 - 1)^2 + 171*(-x3 + 1)*((-2)*x2 - x3 + 1)^2 + 167*(x3 - 1)^3)*(70*x1*(x2 + x3 - 1)^7 + 315*(-x2 - x3 + 1)^5*(2*x1 + x2 + x3 - 1)^3 + 429*(-x2 - x3 + 1)*(2*x1 + x2 + x3 - 1)^7 + 35*(x2 + x3 - 1)^8 + 693*(x2 + x3 - 1)^3*(2*x1 + x2 + x3 - 1)^5)/((x3 - 1)^2*(x2 + x3 - 1));
  (-(1938*x2*(x3 - 1)^2 + 764*(x3 - 1)^3 - 1425*(x3 - 1)*(2*x2 + x3 - 1)^2 + 665*(2*x2 + x3 - 1)^3))*(490*x1*(x2 + x3 - 1)^6 + 280*(x2 + x3 - 1)^7 - 945*(x2 + x3 - 1)^5*(2*x1 + x2 + x3 - 1)^2 - 1575*(x2 + x3 - 1)^4*(2*x1 + x2 + x3 - 1)^3 + 3465*(x2 + x3 - 1)^3*(2*x1 + x2 + x3 - 1)^4 + 2079*(x2 + x3 - 1)^2*(2*x1 + x2 + x3 - 1)^5 - 3003*(x2 + x3 - 1)*(2*x1 + x2 + x3 - 1)^6 - 429*(2*x1 + x2 + x3 - 1)^7)/(64*x2 + 64*x3 - 64) - (1938*x2*(2*x3 - 2) + 2292*(x3 - 1)^2 - 1425*(x3 - 1)*(4*x2 + 2*x3 - 2) + 570*(2*x2 + x3 - 1)^2)*(70*x1*(x2 + x3 - 1)^7 + 35*(x2 + x3 - 1)^8 - 315*(x2 + x3 - 1)^5*(2*x1 + x2 + x3 - 1)^3 + 693*(x2 + x3 - 1)^3*(2*x1 + x2 + x3 - 1)^5 - 429*(x2 + x3 - 1)*(2*x1 + x2 + x3 - 1)^7)/(64*x2 + 64*x3 - 64) + 64*(1938*x2*(x3 - 1)^2 + 764*(x3 - 1)^3 - 1425*(x3 - 1)*(2*x2 + x3 - 1)^2 + 665*(2*x2 + x3 - 1)^3)*(70*x1*(x2 + x3 - 1)^7 + 35*(x2 + x3 - 1)^8 - 315*(x2 + x3 - 1)^5*(2*x1 + x2 + x3 - 1)^3 + 693*(x2 + x3 - 1)^3*(2*x1 + x2 + x3 - 1)^5 - 429*(x2 + x3 - 1)*(2*x1 + x2 + x3 - 1)^7)/(64*x2 + 64*x3 - 64)^2;
  1/512*(1848*x3 - 168)*(35*(x2 + x3 - 1)^8 - 1260*(x2 + x3 - 1)^6*(2*x1 + x2 + x3 - 1)^2 + 6930*(x2 + x3 - 1)^4*(2*x1 + x2 + x3 - 1)^4 - 12012*(x2 + x3 - 1)^2*(2*x1 + x2 + x3 - 1)^6 + 6435*(2*x1 + x2 + x3 - 1)^8) + 1/512*(756*x3 + 231*(2*x3 - 1)^2 - 227)*(280*(x2 + x3 - 1)^7 - 1260*(x2 + x3 - 1)^6*(4*x1 + 2*x2 + 2*x3 - 2) - 7560*(x2 + x3 - 1)^5*(2*x1 + x2 + x3 - 1)^2 + 27720*(x2 + x3 - 1)^4*(2*x1 + x2 + x3 - 1)^3 + 27720*(x2 + x3 - 1)^3*(2*x1 + x2 + x3 - 1)^4 - 72072*(x2 + x3 - 1)^2*(2*x1 + x2 + x3 - 1)^5 - 12012*(2*x2 + 2*x3 - 2)*(2*x1 + x2 + x3 - 1)^6 + 51480*(2*x1 + x2 + x3 - 1)^7);
  1/128*(22*x3 - 1)*(19*x2 + x3 - 1)*(280*(x2 + x3 - 1)^7 - 1260*(x2 + x3 - 1)^6*(4*x1 + 2*x2 + 2*x3 - 2) - 7560*(x2 + x3 - 1)^5*(2*x1 + x2 + x3 - 1)^2 + 27720*(x2 + x3 - 1)^4*(2*x1 + x2 + x3 - 1)^3 + 27720*(x2 + x3 - 1)^3*(2*x1 + x2 + x3 - 1)^4 - 72072*(x2 + x3 - 1)^2*(2*x1 + x2 + x3 - 1)^5 - 12012*(2*x2 + 2*x3 - 2)*(2*x1 + x2 + x3 - 1)^6 + 51480*(2*x1 + x2 + x3 - 1)^7) + 1/128*(22*x3 - 1)*(35*(x2 + x3 - 1)^8 - 1260*(x2 + x3 - 1)^6*(2*x1 + x2 + x3 - 1)^2 + 6930*(x2 + x3 - 1)^4*(2*x1 + x2 + x3 - 1)^4 - 12012*(x2 + x3 - 1)^2*(2*x1 + x2 + x3 - 1)^6 + 6435*(2*x1 + x2 + x3 - 1)^8) + 11/64*(19*x2 + x3 - 1)*(35*(x2 + x3 - 1)^8 - 1260*(x2 + x3 - 1)^6*(2*x1 + x2 + x3 - 1)^2 + 6930*(x2 + x3 - 1)^4*(2*x1 + x2 + x3 - 1)^4 - 12012*(x2 + x3 - 1)^2*(2*x1 + x2 + x3 - 1)^6 + 6435*(2*x1 + x2 + x3 - 1)^8);
  (-(340*x2*(x3 - 1)^2 + 103*(x3 - 1)^3 - 105*(x3 - 1)*(2*x2 + x3 - 1)^2))*(280*(x2 + x3 - 1)^7 - 1260*(x2 + x3 - 1)^6*(4*x1 + 2*x2 + 2*x3 - 2) - 7560*(x2 + x3 - 1)^5*(2*x1 + x2 + x3 - 1)^2 + 27720*(x2 + x3 - 1)^4*(2*x1 + x2 + x3 - 1)^3 + 27720*(x2 + x3 - 1)^3*(2*x1 + x2 + x3 - 1)^4 - 72072*(x2 + x3 - 1)^2*(2*x1 + x2 + x3 - 1)^5 - 12012*(2*x2 + 2*x3 - 2)*(2*x1 + x2 + x3 - 1)^6 + 51480*(2*x1 + x2 + x3 - 1)^7)/(256*x3 - 256) - (340*x2*(2*x3 - 2) + 309*(x3 - 1)^2 - 105*(x3 - 1)*(4*x2 + 2*x3 - 2) - 105*(2*x2 + x3 - 1)^2)*(35*(x2 + x3 - 1)^8 - 1260*(x2 + x3 - 1)^6*(2*x1 + x2 + x3 - 1)^2 + 6930*(x2 + x3 - 1)^4*(2*x1 + x2 + x3 - 1)^4 - 12012*(x2 + x3 - 1)^2*(2*x1 + x2 + x3 - 1)^6 + 6435*(2*x1 + x2 + x3 - 1)^8)/(256*x3 - 256) + 256*(340*x2*(x3 - 1)^2 + 103*(x3 - 1)^3 - 105*(x3 - 1)*(2*x2 + x3 - 1)^2)*(35*(x2 + x3 - 1)^8 - 1260*(x2 + x3 - 1)^6*(2*x1 + x2 + x3 - 1)^2 + 6930*(x2 + x3 - 1)^4*(2*x1 + x2 + x3 - 1)^4 - 12012*(x2 + x3 - 1)^2*(2*x1 + x2 + x3 - 1)^6 + 6435*(2*x1 + x2 + x3 - 1)^8)/(256*x3 - 256)^2;
  1/128*(22*x3 - 1)*(5670*x1*(x2 + x3 - 1)^8 - 90090*(-x2 - x3 + 1)^5*((-2)*x1 - x2 - x3 + 1)^4 - 90090*(-x2 - x3 + 1)^4*((-2)*x1 - x2 - x3 + 1)^5 - 109395*(-x2 - x3 + 1)*((-2)*x1 - x2 - x3 + 1)^8 + 3150*(x2 + x3 - 1)^9 - 13860*(x2 + x3 - 1)^7*((-2)*x1 - x2 - x3 + 1)^2 + 32340*(x2 + x3 - 1)^6*((-2)*x1 - x2 - x3 + 1)^3 - 180180*(x2 + x3 - 1)^3*((-2)*x1 - x2 - x3 + 1)^6 + 77220*(x2 + x3 - 1)^2*((-2)*x1 - x2 - x3 + 1)^7 - 12155*((-2)*x1 - x2 - x3 + 1)^9)/(x2 + x3 - 1) - 1/128*(22*x3 - 1)*(630*x1*(x2 + x3 - 1)^9 + 18018*(-x2 - x3 + 1)^5*((-2)*x1 - x2 - x3 + 1)^5 + 12155*(-x2 - x3 + 1)*((-2)*x1 - x2 - x3 + 1)^9 + 315*(x2 + x3 - 1)^10 + 4620*(x2 + x3 - 1)^7*((-2)*x1 - x2 - x3 + 1)^3 + 25740*(x2 + x3 - 1)^3*((-2)*x1 - x2 - x3 + 1)^7)/(x2 + x3 - 1)^2 + 11/64*(630*x1*(x2 + x3 - 1)^9 + 18018*(-x2 - x3 + 1)^5*((-2)*x1 - x2 - x3 + 1)^5 + 12155*(-x2 - x3 + 1)*((-2)*x1 - x2 - x3 + 1)^9 + 315*(x2 + x3 - 1)^10 + 4620*(x2 + x3 - 1)^7*((-2)*x1 - x2 - x3 + 1)^3 + 25740*(x2 + x3 - 1)^3*((-2)*x1 - x2 - x3 + 1)^7)/(x2 + x3 - 1);
  1/128*(21*x2 + x3 - 1)*(5670*x1*(x2 + x3 - 1)^8 - 90090*(-x2 - x3 + 1)^5*((-2)*x1 - x2 - x3 + 1)^4 - 90090*(-x2 - x3 + 1)^4*((-2)*x1 - x2 - x3 + 1)^5 - 109395*(-x2 - x3 + 1)*((-2)*x1 - x2 - x3 + 1)^8 + 3150*(x2 + x3 - 1)^9 - 13860*(x2 + x3 - 1)^7*((-2)*x1 - x2 - x3 + 1)^2 + 32340*(x2 + x3 - 1)^6*((-2)*x1 - x2 - x3 + 1)^3 - 180180*(x2 + x3 - 1)^3*((-2)*x1 - x2 - x3 + 1)^6 + 77220*(x2 + x3 - 1)^2*((-2)*x1 - x2 - x3 + 1)^7 - 12155*((-2)*x1 - x2 - x3 + 1)^9)/(x2 + x3 - 1) + 1/128*(630*x1*(x2 + x3 - 1)^9 + 18018*(-x2 - x3 + 1)^5*((-2)*x1 - x2 - x3 + 1)^5 + 12155*(-x2 - x3 + 1)*((-2)*x1 - x2 - x3 + 1)^9 + 315*(x2 + x3 - 1)^10 + 4620*(x2 + x3 - 1)^7*((-2)*x1 - x2 - x3 + 1)^3 + 25740*(x2 + x3 - 1)^3*((-2)*x1 - x2 - x3 + 1)^7)/(x2 + x3 - 1) - 1/128*(21*x2 + x3 - 1)*(630*x1*(x2 + x3 - 1)^9 + 18018*(-x2 - x3 + 1)^5*((-2)*x1 - x2 - x3 + 1)^5 + 12155*(-x2 - x3 + 1)*((-2)*x1 - x2 - x3 + 1)^9 + 315*(x2 + x3 - 1)^10 + 4620*(x2 + x3 - 1)^7*((-2)*x1 - x2 - x3 + 1)^3 + 25740*(x2 + x3 - 1)^3*((-2)*x1 - x2 - x3 + 1)^7)/(x2 + x3 - 1)^2;
  (-315)/128*(x2 + x3 - 1)^9 + 3465/256*(x2 + x3 - 1)^8*(4*x1 + 2*x2 + 2*x3 - 2) + 3465/32*(x2 + x3 - 1)^7*(2*x1 + x2 + x3 - 1)^2 - 15015/32*(x2 + x3 - 1)^6*(2*x1 + x2 + x3 - 1)^3 - 45045/64*(x2 + x3 - 1)^5*(2*x1 + x2 + x3 - 1)^4 + 135135/64*(x2 + x3 - 1)^4*(2*x1 + x2 + x3 - 1)^5 + 45045/32*(x2 + x3 - 1)^3*(2*x1 + x2 + x3 - 1)^6 - 109395/32*(x2 + x3 - 1)^2*(2*x1 + x2 + x3 - 1)^7 - 109395/256*(2*x2 + 2*x3 - 2)*(2*x1 + x2 + x3 - 1)^8 + 230945/128*(2*x1 + x2 + x3 - 1)^9].
