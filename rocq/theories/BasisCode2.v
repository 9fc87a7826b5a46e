(** Values and derivatives of the basis functions of lines and triangles.  Generated from the files of /repo/src/dg/generated by a script, which keeps the expressions' structure; [x1], [x2], [x3] are xi_1 (xi), xi_2, xi_3;
    std::pow(a, n) is [a^n]; the literals 3.0L are written 3. *)
From Coq Require Import List ZArith.
From Verif Require Import BasisEx.
Import ListNotations.
Local Open Scope ex_scope.

(** src/dg/generated/basis_line.inc:25-54 *)
Definition line_val : list ex := [
  1;
  2*x1 - 1;
  3/2*(2*x1 - 1)^2 - 1/2;
  (-3)*x1 + 5/2*(2*x1 - 1)^3 + 3/2;
  35/8*(2*x1 - 1)^4 - 15/4*(2*x1 - 1)^2 + 3/8;
  15/4*x1 + 63/8*(2*x1 - 1)^5 - 35/4*(2*x1 - 1)^3 - 15/8;
  231/16*(2*x1 - 1)^6 - 315/16*(2*x1 - 1)^4 + 105/16*(2*x1 - 1)^2 - 5/16;
  (-35)/8*x1 + 429/16*(2*x1 - 1)^7 - 693/16*(2*x1 - 1)^5 + 315/16*(2*x1 - 1)^3 + 35/16;
  6435/128*(2*x1 - 1)^8 - 3003/32*(2*x1 - 1)^6 + 3465/64*(2*x1 - 1)^4 - 315/32*(2*x1 - 1)^2 + 35/128;
  315/64*x1 + 12155/128*(2*x1 - 1)^9 - 6435/32*(2*x1 - 1)^7 + 9009/64*(2*x1 - 1)^5 - 1155/32*(2*x1 - 1)^3 - 315/128].

(** src/dg/generated/basis_line_der.inc:25-54 *)
Definition line_d1 : list ex := [
  0;
  2;
  12*x1 - 6;
  15*(2*x1 - 1)^2 - 3;
  (-30)*x1 + 35*(2*x1 - 1)^3 + 15;
  315/4*(2*x1 - 1)^4 - 105/2*(2*x1 - 1)^2 + 15/4;
  105/2*x1 + 693/4*(2*x1 - 1)^5 - 315/2*(2*x1 - 1)^3 - 105/4;
  3003/8*(2*x1 - 1)^6 - 3465/8*(2*x1 - 1)^4 + 945/8*(2*x1 - 1)^2 - 35/8;
  (-315)/4*x1 + 6435/8*(2*x1 - 1)^7 - 9009/8*(2*x1 - 1)^5 + 3465/8*(2*x1 - 1)^3 + 315/8;
  109395/64*(2*x1 - 1)^8 - 45045/16*(2*x1 - 1)^6 + 45045/32*(2*x1 - 1)^4 - 3465/16*(2*x1 - 1)^2 + 315/64].

(** src/dg/generated/basis_tria.inc:25-189 *)
Definition tria_val : list ex := [
  1;
  3*x2 - 1;
  2*x1 + x2 - 1;
  10*x2^2 - 8*x2 + 1;
  (5*x2 - 1)*(2*x1 + x2 - 1);
  (-1)/2*(x2 - 1)^2 + 3/2*(2*x1 + x2 - 1)^2;
  35*x2^3 - 45*x2^2 + 15*x2 - 1;
  1/4*(2*x1 + x2 - 1)*(36*x2 + 21*(2*x2 - 1)^2 - 17);
  1/2*(7*x2 - 1)*(-(x2 - 1)^2 + 3*(2*x1 + x2 - 1)^2);
  (-(6*x1*(x2 - 1)^3 + 3*(x2 - 1)^4 - 5*(x2 - 1)*(2*x1 + x2 - 1)^3))/(2*x2 - 2);
  126*x2^4 - 224*x2^3 + 126*x2^2 - 24*x2 + 1;
  1/2*(2*x1 + x2 - 1)*(21*(2*x2 - 1)^3 + 21*(2*x2 - 1)^2 - 2);
  1/2*(-(x2 - 1)^2 + 3*(2*x1 + x2 - 1)^2)*(20*x2 + 9*(2*x2 - 1)^2 - 8);
  (-(9*x2 - 1))*(6*x1*(x2 - 1)^3 + 3*(x2 - 1)^4 - 5*(x2 - 1)*(2*x1 + x2 - 1)^3)/(2*x2 - 2);
  3/8*(x2 - 1)^4 - 15/4*(x2 - 1)^2*(2*x1 + x2 - 1)^2 + 35/8*(2*x1 + x2 - 1)^4;
  462*x2^5 - 1050*x2^4 + 840*x2^3 - 280*x2^2 + 35*x2 - 1;
  1/8*(2*x1 + x2 - 1)*((-88)*x2 + 165*(2*x2 - 1)^4 + 180*(2*x2 - 1)^3 - 18*(2*x2 - 1)^2 + 41);
  1/16*(-(x2 - 1)^2 + 3*(2*x1 + x2 - 1)^2)*(126*x2 + 165*(2*x2 - 1)^3 + 225*(2*x2 - 1)^2 - 68);
  (-(140*x2 + 55*(2*x2 - 1)^2 - 51))*(6*x1*(x2 - 1)^3 + 3*(x2 - 1)^4 - 5*(x2 - 1)*(2*x1 + x2 - 1)^3)/(8*x2 - 8);
  1/8*(11*x2 - 1)*(3*(x2 - 1)^4 - 30*(x2 - 1)^2*(2*x1 + x2 - 1)^2 + 35*(2*x1 + x2 - 1)^4);
  1/8*(30*x1*(x2 - 1)^5 + 63*(-x2 + 1)*((-2)*x1 - x2 + 1)^5 + 15*(x2 - 1)^6 + 70*(x2 - 1)^3*((-2)*x1 - x2 + 1)^3)/(x2 - 1);
  1716*x2^6 - 4752*x2^5 + 4950*x2^4 - 2400*x2^3 + 540*x2^2 - 48*x2 + 1;
  (-1)/32*(2*x1 + x2 - 1)*(90*x2 - 1287*(2*x2 - 1)^5 - 1485*(2*x2 - 1)^4 + 330*(2*x2 - 1)^3 + 630*(2*x2 - 1)^2 - 70);
  1/32*(-(x2 - 1)^2 + 3*(2*x1 + x2 - 1)^2)*((-200)*x2 + 715*(2*x2 - 1)^4 + 1100*(2*x2 - 1)^3 + 330*(2*x2 - 1)^2 + 71);
  (-(6*x1*(x2 - 1)^3 + 3*(x2 - 1)^4 - 5*(x2 - 1)*(2*x1 + x2 - 1)^3))*(198*x2 + 143*(2*x2 - 1)^3 + 231*(2*x2 - 1)^2 - 92)/(8*x2 - 8);
  1/16*(108*x2 + 39*(2*x2 - 1)^2 - 37)*(3*(x2 - 1)^4 - 30*(x2 - 1)^2*(2*x1 + x2 - 1)^2 + 35*(2*x1 + x2 - 1)^4);
  1/8*(13*x2 - 1)*(30*x1*(x2 - 1)^5 + 63*(-x2 + 1)*((-2)*x1 - x2 + 1)^5 + 15*(x2 - 1)^6 + 70*(x2 - 1)^3*((-2)*x1 - x2 + 1)^3)/(x2 - 1);
  (-5)/16*(x2 - 1)^6 + 105/16*(x2 - 1)^4*(2*x1 + x2 - 1)^2 - 315/16*(x2 - 1)^2*(2*x1 + x2 - 1)^4 + 231/16*(2*x1 + x2 - 1)^6;
  6435*x2^7 - 21021*x2^6 + 27027*x2^5 - 17325*x2^4 + 5775*x2^3 - 945*x2^2 + 63*x2 - 1;
  (-1)/64*(2*x1 + x2 - 1)*((-780)*x2 - 5005*(2*x2 - 1)^6 - 6006*(2*x2 - 1)^5 + 2145*(2*x2 - 1)^4 + 3740*(2*x2 - 1)^3 + 165*(2*x2 - 1)^2 + 365);
  1/64*(-(x2 - 1)^2 + 3*(2*x1 + x2 - 1)^2)*((-770)*x2 + 3003*(2*x2 - 1)^5 + 5005*(2*x2 - 1)^4 + 1430*(2*x2 - 1)^3 - 990*(2*x2 - 1)^2 + 386);
  (-(6*x1*(x2 - 1)^3 + 3*(x2 - 1)^4 - 5*(x2 - 1)*(2*x1 + x2 - 1)^3))*(168*x2 + 1365*(2*x2 - 1)^4 + 2548*(2*x2 - 1)^3 + 1326*(2*x2 - 1)^2 - 127)/(32*x2 - 32);
  1/64*(3*(x2 - 1)^4 - 30*(x2 - 1)^2*(2*x1 + x2 - 1)^2 + 35*(2*x1 + x2 - 1)^4)*(858*x2 + 455*(2*x2 - 1)^3 + 819*(2*x2 - 1)^2 - 372);
  1/32*(308*x2 + 105*(2*x2 - 1)^2 - 101)*(30*x1*(x2 - 1)^5 + 63*(-x2 + 1)*((-2)*x1 - x2 + 1)^5 + 15*(x2 - 1)^6 + 70*(x2 - 1)^3*((-2)*x1 - x2 + 1)^3)/(x2 - 1);
  1/16*(15*x2 - 1)*((-5)*(x2 - 1)^6 + 105*(x2 - 1)^4*(2*x1 + x2 - 1)^2 - 315*(x2 - 1)^2*(2*x1 + x2 - 1)^4 + 231*(2*x1 + x2 - 1)^6);
  1/16*((-70)*x1*(x2 - 1)^7 - 429*(-x2 + 1)*(2*x1 + x2 - 1)^7 - 35*(x2 - 1)^8 + 315*(x2 - 1)^5*(2*x1 + x2 - 1)^3 - 693*(x2 - 1)^3*(2*x1 + x2 - 1)^5)/(x2 - 1);
  24310*x2^8 - 91520*x2^7 + 140140*x2^6 - 112112*x2^5 + 50050*x2^4 - 12320*x2^3 + 1540*x2^2 - 80*x2 + 1;
  1/32*(2*x1 + x2 - 1)*(154*x2 + 4862*(2*x2 - 1)^7 + 6006*(2*x2 - 1)^6 - 3003*(2*x2 - 1)^5 - 5005*(2*x2 - 1)^4 + 924*(2*x2 - 1)^2 - 98);
  1/32*(-(x2 - 1)^2 + 3*(2*x1 + x2 - 1)^2)*(96*x2 + 3094*(2*x2 - 1)^6 + 5460*(2*x2 - 1)^5 + 1365*(2*x2 - 1)^4 - 1820*(2*x2 - 1)^3 - 780*(2*x2 - 1)^2 - 23);
  (-(6*x1*(x2 - 1)^3 + 3*(x2 - 1)^4 - 5*(x2 - 1)*(2*x1 + x2 - 1)^3))*((-390)*x2 + 1547*(2*x2 - 1)^5 + 3185*(2*x2 - 1)^4 + 1820*(2*x2 - 1)^3 + 174)/(16*x2 - 16);
  1/32*(3*(x2 - 1)^4 - 30*(x2 - 1)^2*(2*x1 + x2 - 1)^2 + 35*(2*x1 + x2 - 1)^4)*(336*x2 + 595*(2*x2 - 1)^4 + 1260*(2*x2 - 1)^3 + 840*(2*x2 - 1)^2 - 171);
  1/8*(195*x2 + 85*(2*x2 - 1)^3 + 165*(2*x2 - 1)^2 - 81)*(30*x1*(x2 - 1)^5 + 63*(-x2 + 1)*((-2)*x1 - x2 + 1)^5 + 15*(x2 - 1)^6 + 70*(x2 - 1)^3*((-2)*x1 - x2 + 1)^3)/(x2 - 1);
  1/16*(104*x2 + 34*(2*x2 - 1)^2 - 33)*((-5)*(x2 - 1)^6 + 105*(x2 - 1)^4*(2*x1 + x2 - 1)^2 - 315*(x2 - 1)^2*(2*x1 + x2 - 1)^4 + 231*(2*x1 + x2 - 1)^6);
  (-(17*x2 - 1))*(70*x1*(x2 - 1)^7 + 35*(x2 - 1)^8 - 315*(x2 - 1)^5*(2*x1 + x2 - 1)^3 + 693*(x2 - 1)^3*(2*x1 + x2 - 1)^5 - 429*(x2 - 1)*(2*x1 + x2 - 1)^7)/(16*x2 - 16);
  35/128*(x2 - 1)^8 - 315/32*(x2 - 1)^6*(2*x1 + x2 - 1)^2 + 3465/64*(x2 - 1)^4*(2*x1 + x2 - 1)^4 - 3003/32*(x2 - 1)^2*(2*x1 + x2 - 1)^6 + 6435/128*(2*x1 + x2 - 1)^8;
  92378*x2^9 - 393822*x2^8 + 700128*x2^7 - 672672*x2^6 + 378378*x2^5 - 126126*x2^4 + 24024*x2^3 - 2376*x2^2 + 99*x2 - 1;
  1/128*(2*x1 + x2 - 1)*((-1680)*x2 + 37791*(2*x2 - 1)^8 + 47736*(2*x2 - 1)^7 - 30940*(2*x2 - 1)^6 - 50232*(2*x2 - 1)^5 + 2730*(2*x2 - 1)^4 + 13832*(2*x2 - 1)^3 + 1092*(2*x2 - 1)^2 + 791);
  1/64*(-(x2 - 1)^2 + 3*(2*x1 + x2 - 1)^2)*(910*x2 + 12597*(2*x2 - 1)^7 + 23205*(2*x2 - 1)^6 + 4641*(2*x2 - 1)^5 - 11375*(2*x2 - 1)^4 - 5005*(2*x2 - 1)^3 + 819*(2*x2 - 1)^2 - 448);
  (-(6*x1*(x2 - 1)^3 + 3*(x2 - 1)^4 - 5*(x2 - 1)*(2*x1 + x2 - 1)^3))*((-588)*x2 + 6783*(2*x2 - 1)^6 + 14994*(2*x2 - 1)^5 + 8925*(2*x2 - 1)^4 - 980*(2*x2 - 1)^3 - 1995*(2*x2 - 1)^2 + 317)/(32*x2 - 32);
  1/64*(3*(x2 - 1)^4 - 30*(x2 - 1)^2*(2*x1 + x2 - 1)^2 + 35*(2*x1 + x2 - 1)^4)*((-330)*x2 + 2907*(2*x2 - 1)^5 + 6885*(2*x2 - 1)^4 + 5270*(2*x2 - 1)^3 + 1170*(2*x2 - 1)^2 + 114);
  1/32*(30*x1*(x2 - 1)^5 + 63*(-x2 + 1)*((-2)*x1 - x2 + 1)^5 + 15*(x2 - 1)^6 + 70*(x2 - 1)^3*((-2)*x1 - x2 + 1)^3)*(968*x2 + 969*(2*x2 - 1)^4 + 2244*(2*x2 - 1)^3 + 1734*(2*x2 - 1)^2 - 455)/(x2 - 1);
  1/128*(2550*x2 + 969*(2*x2 - 1)^3 + 1989*(2*x2 - 1)^2 - 1028)*((-5)*(x2 - 1)^6 + 105*(x2 - 1)^4*(2*x1 + x2 - 1)^2 - 315*(x2 - 1)^2*(2*x1 + x2 - 1)^4 + 231*(2*x1 + x2 - 1)^6);
  (-(540*x2 + 171*(2*x2 - 1)^2 - 167))*(70*x1*(x2 - 1)^7 + 35*(x2 - 1)^8 - 315*(x2 - 1)^5*(2*x1 + x2 - 1)^3 + 693*(x2 - 1)^3*(2*x1 + x2 - 1)^5 - 429*(x2 - 1)*(2*x1 + x2 - 1)^7)/(64*x2 - 64);
  1/128*(19*x2 - 1)*(35*(x2 - 1)^8 - 1260*(x2 - 1)^6*(2*x1 + x2 - 1)^2 + 6930*(x2 - 1)^4*(2*x1 + x2 - 1)^4 - 12012*(x2 - 1)^2*(2*x1 + x2 - 1)^6 + 6435*(2*x1 + x2 - 1)^8);
  1/128*(630*x1*(x2 - 1)^9 + 18018*(-x2 + 1)^5*((-2)*x1 - x2 + 1)^5 + 12155*(-x2 + 1)*((-2)*x1 - x2 + 1)^9 + 315*(x2 - 1)^10 + 4620*(x2 - 1)^7*((-2)*x1 - x2 + 1)^3 + 25740*(x2 - 1)^3*((-2)*x1 - x2 + 1)^7)/(x2 - 1)].

(** src/dg/generated/basis_tria_der_xi1.inc:25-189 *)
Definition tria_d1 : list ex := [
  0;
  0;
  2;
  0;
  10*x2 - 2;
  12*x1 + 6*x2 - 6;
  0;
  18*x2 + 21/2*(2*x2 - 1)^2 - 17/2;
  1/2*(7*x2 - 1)*(24*x1 + 12*x2 - 12);
  (-(6*(x2 - 1)^3 - 30*(x2 - 1)*(2*x1 + x2 - 1)^2))/(2*x2 - 2);
  0;
  21*(2*x2 - 1)^3 + 21*(2*x2 - 1)^2 - 2;
  1/2*(24*x1 + 12*x2 - 12)*(20*x2 + 9*(2*x2 - 1)^2 - 8);
  (-(9*x2 - 1))*(6*(x2 - 1)^3 - 30*(x2 - 1)*(2*x1 + x2 - 1)^2)/(2*x2 - 2);
  (-15)/4*(x2 - 1)^2*(8*x1 + 4*x2 - 4) + 35*(2*x1 + x2 - 1)^3;
  0;
  (-22)*x2 + 165/4*(2*x2 - 1)^4 + 45*(2*x2 - 1)^3 - 9/2*(2*x2 - 1)^2 + 41/4;
  1/16*(24*x1 + 12*x2 - 12)*(126*x2 + 165*(2*x2 - 1)^3 + 225*(2*x2 - 1)^2 - 68);
  (-(6*(x2 - 1)^3 - 30*(x2 - 1)*(2*x1 + x2 - 1)^2))*(140*x2 + 55*(2*x2 - 1)^2 - 51)/(8*x2 - 8);
  1/8*(11*x2 - 1)*((-30)*(x2 - 1)^2*(8*x1 + 4*x2 - 4) + 280*(2*x1 + x2 - 1)^3);
  1/8*((-630)*(-x2 + 1)*((-2)*x1 - x2 + 1)^4 + 30*(x2 - 1)^5 - 420*(x2 - 1)^3*((-2)*x1 - x2 + 1)^2)/(x2 - 1);
  0;
  (-45)/8*x2 + 1287/16*(2*x2 - 1)^5 + 1485/16*(2*x2 - 1)^4 - 165/8*(2*x2 - 1)^3 - 315/8*(2*x2 - 1)^2 + 35/8;
  1/32*(24*x1 + 12*x2 - 12)*((-200)*x2 + 715*(2*x2 - 1)^4 + 1100*(2*x2 - 1)^3 + 330*(2*x2 - 1)^2 + 71);
  (-(6*(x2 - 1)^3 - 30*(x2 - 1)*(2*x1 + x2 - 1)^2))*(198*x2 + 143*(2*x2 - 1)^3 + 231*(2*x2 - 1)^2 - 92)/(8*x2 - 8);
  1/16*((-30)*(x2 - 1)^2*(8*x1 + 4*x2 - 4) + 280*(2*x1 + x2 - 1)^3)*(108*x2 + 39*(2*x2 - 1)^2 - 37);
  1/8*(13*x2 - 1)*((-630)*(-x2 + 1)*((-2)*x1 - x2 + 1)^4 + 30*(x2 - 1)^5 - 420*(x2 - 1)^3*((-2)*x1 - x2 + 1)^2)/(x2 - 1);
  105/16*(x2 - 1)^4*(8*x1 + 4*x2 - 4) - 315/2*(x2 - 1)^2*(2*x1 + x2 - 1)^3 + 693/4*(2*x1 + x2 - 1)^5;
  0;
  195/8*x2 + 5005/32*(2*x2 - 1)^6 + 3003/16*(2*x2 - 1)^5 - 2145/32*(2*x2 - 1)^4 - 935/8*(2*x2 - 1)^3 - 165/32*(2*x2 - 1)^2 - 365/32;
  1/64*(24*x1 + 12*x2 - 12)*((-770)*x2 + 3003*(2*x2 - 1)^5 + 5005*(2*x2 - 1)^4 + 1430*(2*x2 - 1)^3 - 990*(2*x2 - 1)^2 + 386);
  (-(6*(x2 - 1)^3 - 30*(x2 - 1)*(2*x1 + x2 - 1)^2))*(168*x2 + 1365*(2*x2 - 1)^4 + 2548*(2*x2 - 1)^3 + 1326*(2*x2 - 1)^2 - 127)/(32*x2 - 32);
  1/64*((-30)*(x2 - 1)^2*(8*x1 + 4*x2 - 4) + 280*(2*x1 + x2 - 1)^3)*(858*x2 + 455*(2*x2 - 1)^3 + 819*(2*x2 - 1)^2 - 372);
  1/32*(308*x2 + 105*(2*x2 - 1)^2 - 101)*((-630)*(-x2 + 1)*((-2)*x1 - x2 + 1)^4 + 30*(x2 - 1)^5 - 420*(x2 - 1)^3*((-2)*x1 - x2 + 1)^2)/(x2 - 1);
  1/16*(15*x2 - 1)*(105*(x2 - 1)^4*(8*x1 + 4*x2 - 4) - 2520*(x2 - 1)^2*(2*x1 + x2 - 1)^3 + 2772*(2*x1 + x2 - 1)^5);
  1/16*((-6006)*(-x2 + 1)*(2*x1 + x2 - 1)^6 - 70*(x2 - 1)^7 + 1890*(x2 - 1)^5*(2*x1 + x2 - 1)^2 - 6930*(x2 - 1)^3*(2*x1 + x2 - 1)^4)/(x2 - 1);
  0;
  77/8*x2 + 2431/8*(2*x2 - 1)^7 + 3003/8*(2*x2 - 1)^6 - 3003/16*(2*x2 - 1)^5 - 5005/16*(2*x2 - 1)^4 + 231/4*(2*x2 - 1)^2 - 49/8;
  1/32*(24*x1 + 12*x2 - 12)*(96*x2 + 3094*(2*x2 - 1)^6 + 5460*(2*x2 - 1)^5 + 1365*(2*x2 - 1)^4 - 1820*(2*x2 - 1)^3 - 780*(2*x2 - 1)^2 - 23);
  (-(6*(x2 - 1)^3 - 30*(x2 - 1)*(2*x1 + x2 - 1)^2))*((-390)*x2 + 1547*(2*x2 - 1)^5 + 3185*(2*x2 - 1)^4 + 1820*(2*x2 - 1)^3 + 174)/(16*x2 - 16);
  1/32*((-30)*(x2 - 1)^2*(8*x1 + 4*x2 - 4) + 280*(2*x1 + x2 - 1)^3)*(336*x2 + 595*(2*x2 - 1)^4 + 1260*(2*x2 - 1)^3 + 840*(2*x2 - 1)^2 - 171);
  1/8*((-630)*(-x2 + 1)*((-2)*x1 - x2 + 1)^4 + 30*(x2 - 1)^5 - 420*(x2 - 1)^3*((-2)*x1 - x2 + 1)^2)*(195*x2 + 85*(2*x2 - 1)^3 + 165*(2*x2 - 1)^2 - 81)/(x2 - 1);
  1/16*(104*x2 + 34*(2*x2 - 1)^2 - 33)*(105*(x2 - 1)^4*(8*x1 + 4*x2 - 4) - 2520*(x2 - 1)^2*(2*x1 + x2 - 1)^3 + 2772*(2*x1 + x2 - 1)^5);
  (-(17*x2 - 1))*(70*(x2 - 1)^7 - 1890*(x2 - 1)^5*(2*x1 + x2 - 1)^2 + 6930*(x2 - 1)^3*(2*x1 + x2 - 1)^4 - 6006*(x2 - 1)*(2*x1 + x2 - 1)^6)/(16*x2 - 16);
  (-315)/32*(x2 - 1)^6*(8*x1 + 4*x2 - 4) + 3465/8*(x2 - 1)^4*(2*x1 + x2 - 1)^3 - 9009/8*(x2 - 1)^2*(2*x1 + x2 - 1)^5 + 6435/8*(2*x1 + x2 - 1)^7;
  0;
  (-105)/4*x2 + 37791/64*(2*x2 - 1)^8 + 5967/8*(2*x2 - 1)^7 - 7735/16*(2*x2 - 1)^6 - 6279/8*(2*x2 - 1)^5 + 1365/32*(2*x2 - 1)^4 + 1729/8*(2*x2 - 1)^3 + 273/16*(2*x2 - 1)^2 + 791/64;
  1/64*(24*x1 + 12*x2 - 12)*(910*x2 + 12597*(2*x2 - 1)^7 + 23205*(2*x2 - 1)^6 + 4641*(2*x2 - 1)^5 - 11375*(2*x2 - 1)^4 - 5005*(2*x2 - 1)^3 + 819*(2*x2 - 1)^2 - 448);
  (-(6*(x2 - 1)^3 - 30*(x2 - 1)*(2*x1 + x2 - 1)^2))*((-588)*x2 + 6783*(2*x2 - 1)^6 + 14994*(2*x2 - 1)^5 + 8925*(2*x2 - 1)^4 - 980*(2*x2 - 1)^3 - 1995*(2*x2 - 1)^2 + 317)/(32*x2 - 32);
  1/64*((-30)*(x2 - 1)^2*(8*x1 + 4*x2 - 4) + 280*(2*x1 + x2 - 1)^3)*((-330)*x2 + 2907*(2*x2 - 1)^5 + 6885*(2*x2 - 1)^4 + 5270*(2*x2 - 1)^3 + 1170*(2*x2 - 1)^2 + 114);
  1/32*((-630)*(-x2 + 1)*((-2)*x1 - x2 + 1)^4 + 30*(x2 - 1)^5 - 420*(x2 - 1)^3*((-2)*x1 - x2 + 1)^2)*(968*x2 + 969*(2*x2 - 1)^4 + 2244*(2*x2 - 1)^3 + 1734*(2*x2 - 1)^2 - 455)/(x2 - 1);
  1/128*(105*(x2 - 1)^4*(8*x1 + 4*x2 - 4) - 2520*(x2 - 1)^2*(2*x1 + x2 - 1)^3 + 2772*(2*x1 + x2 - 1)^5)*(2550*x2 + 969*(2*x2 - 1)^3 + 1989*(2*x2 - 1)^2 - 1028);
  (-(540*x2 + 171*(2*x2 - 1)^2 - 167))*(70*(x2 - 1)^7 - 1890*(x2 - 1)^5*(2*x1 + x2 - 1)^2 + 6930*(x2 - 1)^3*(2*x1 + x2 - 1)^4 - 6006*(x2 - 1)*(2*x1 + x2 - 1)^6)/(64*x2 - 64);
  1/128*(19*x2 - 1)*((-1260)*(x2 - 1)^6*(8*x1 + 4*x2 - 4) + 55440*(x2 - 1)^4*(2*x1 + x2 - 1)^3 - 144144*(x2 - 1)^2*(2*x1 + x2 - 1)^5 + 102960*(2*x1 + x2 - 1)^7);
  1/128*((-180180)*(-x2 + 1)^5*((-2)*x1 - x2 + 1)^4 - 218790*(-x2 + 1)*((-2)*x1 - x2 + 1)^8 + 630*(x2 - 1)^9 - 27720*(x2 - 1)^7*((-2)*x1 - x2 + 1)^2 - 360360*(x2 - 1)^3*((-2)*x1 - x2 + 1)^6)/(x2 - 1)].

(** src/dg/generated/basis_tria_der_xi2.inc:25-189 *)
Definition tria_d2 : list ex := [
  0;
  3;
  1;
  20*x2 - 8;
  10*x1 + 10*x2 - 6;
  6*x1 + 2*x2 - 2;
  105*x2^2 - 90*x2 + 15;
  9*x2 + 21/4*(2*x2 - 1)^2 + 1/4*(168*x2 - 48)*(2*x1 + x2 - 1) - 17/4;
  (-7)/2*(x2 - 1)^2 + 1/2*(7*x2 - 1)*(12*x1 + 4*x2 - 4) + 21/2*(2*x1 + x2 - 1)^2;
  (-(18*x1*(x2 - 1)^2 + 12*(x2 - 1)^3 - 15*(x2 - 1)*(2*x1 + x2 - 1)^2 - 5*(2*x1 + x2 - 1)^3))/(2*x2 - 2) + 2*(6*x1*(x2 - 1)^3 + 3*(x2 - 1)^4 - 5*(x2 - 1)*(2*x1 + x2 - 1)^3)/(2*x2 - 2)^2;
  504*x2^3 - 672*x2^2 + 252*x2 - 24;
  21/2*(2*x2 - 1)^3 + 21/2*(2*x2 - 1)^2 + 1/2*(2*x1 + x2 - 1)*(168*x2 + 126*(2*x2 - 1)^2 - 84) - 1;
  1/2*(72*x2 - 16)*(-(x2 - 1)^2 + 3*(2*x1 + x2 - 1)^2) + 1/2*(12*x1 + 4*x2 - 4)*(20*x2 + 9*(2*x2 - 1)^2 - 8);
  (-(9*x2 - 1))*(18*x1*(x2 - 1)^2 + 12*(x2 - 1)^3 - 15*(x2 - 1)*(2*x1 + x2 - 1)^2 - 5*(2*x1 + x2 - 1)^3)/(2*x2 - 2) - 9*(6*x1*(x2 - 1)^3 + 3*(x2 - 1)^4 - 5*(x2 - 1)*(2*x1 + x2 - 1)^3)/(2*x2 - 2) + 2*(9*x2 - 1)*(6*x1*(x2 - 1)^3 + 3*(x2 - 1)^4 - 5*(x2 - 1)*(2*x1 + x2 - 1)^3)/(2*x2 - 2)^2;
  3/2*(x2 - 1)^3 - 15/4*(x2 - 1)^2*(4*x1 + 2*x2 - 2) - 15/4*(2*x2 - 2)*(2*x1 + x2 - 1)^2 + 35/2*(2*x1 + x2 - 1)^3;
  2310*x2^4 - 4200*x2^3 + 2520*x2^2 - 560*x2 + 35;
  (-11)*x2 + 165/8*(2*x2 - 1)^4 + 45/2*(2*x2 - 1)^3 - 9/4*(2*x2 - 1)^2 + 1/8*(2*x1 + x2 - 1)*((-144)*x2 + 1320*(2*x2 - 1)^3 + 1080*(2*x2 - 1)^2 - 16) + 41/8;
  1/16*(-(x2 - 1)^2 + 3*(2*x1 + x2 - 1)^2)*(1800*x2 + 990*(2*x2 - 1)^2 - 774) + 1/16*(12*x1 + 4*x2 - 4)*(126*x2 + 165*(2*x2 - 1)^3 + 225*(2*x2 - 1)^2 - 68);
  (-(440*x2 - 80))*(6*x1*(x2 - 1)^3 + 3*(x2 - 1)^4 - 5*(x2 - 1)*(2*x1 + x2 - 1)^3)/(8*x2 - 8) - (140*x2 + 55*(2*x2 - 1)^2 - 51)*(18*x1*(x2 - 1)^2 + 12*(x2 - 1)^3 - 15*(x2 - 1)*(2*x1 + x2 - 1)^2 - 5*(2*x1 + x2 - 1)^3)/(8*x2 - 8) + 8*(140*x2 + 55*(2*x2 - 1)^2 - 51)*(6*x1*(x2 - 1)^3 + 3*(x2 - 1)^4 - 5*(x2 - 1)*(2*x1 + x2 - 1)^3)/(8*x2 - 8)^2;
  33/8*(x2 - 1)^4 - 165/4*(x2 - 1)^2*(2*x1 + x2 - 1)^2 + 1/8*(11*x2 - 1)*(12*(x2 - 1)^3 - 30*(x2 - 1)^2*(4*x1 + 2*x2 - 2) - 30*(2*x2 - 2)*(2*x1 + x2 - 1)^2 + 140*(2*x1 + x2 - 1)^3) + 385/8*(2*x1 + x2 - 1)^4;
  1/8*(150*x1*(x2 - 1)^4 - 315*(-x2 + 1)*((-2)*x1 - x2 + 1)^4 + 90*(x2 - 1)^5 - 210*(x2 - 1)^3*((-2)*x1 - x2 + 1)^2 + 210*(x2 - 1)^2*((-2)*x1 - x2 + 1)^3 - 63*((-2)*x1 - x2 + 1)^5)/(x2 - 1) - 1/8*(30*x1*(x2 - 1)^5 + 63*(-x2 + 1)*((-2)*x1 - x2 + 1)^5 + 15*(x2 - 1)^6 + 70*(x2 - 1)^3*((-2)*x1 - x2 + 1)^3)/(x2 - 1)^2;
  10296*x2^5 - 23760*x2^4 + 19800*x2^3 - 7200*x2^2 + 1080*x2 - 48;
  (-45)/16*x2 + 1287/32*(2*x2 - 1)^5 + 1485/32*(2*x2 - 1)^4 - 165/16*(2*x2 - 1)^3 - 315/16*(2*x2 - 1)^2 - 1/32*(2*x1 + x2 - 1)*(5040*x2 - 12870*(2*x2 - 1)^4 - 11880*(2*x2 - 1)^3 + 1980*(2*x2 - 1)^2 - 2430) + 35/16;
  1/32*(-(x2 - 1)^2 + 3*(2*x1 + x2 - 1)^2)*(2640*x2 + 5720*(2*x2 - 1)^3 + 6600*(2*x2 - 1)^2 - 1520) + 1/32*(12*x1 + 4*x2 - 4)*((-200)*x2 + 715*(2*x2 - 1)^4 + 1100*(2*x2 - 1)^3 + 330*(2*x2 - 1)^2 + 71);
  (-(1848*x2 + 858*(2*x2 - 1)^2 - 726))*(6*x1*(x2 - 1)^3 + 3*(x2 - 1)^4 - 5*(x2 - 1)*(2*x1 + x2 - 1)^3)/(8*x2 - 8) - (198*x2 + 143*(2*x2 - 1)^3 + 231*(2*x2 - 1)^2 - 92)*(18*x1*(x2 - 1)^2 + 12*(x2 - 1)^3 - 15*(x2 - 1)*(2*x1 + x2 - 1)^2 - 5*(2*x1 + x2 - 1)^3)/(8*x2 - 8) + 8*(6*x1*(x2 - 1)^3 + 3*(x2 - 1)^4 - 5*(x2 - 1)*(2*x1 + x2 - 1)^3)*(198*x2 + 143*(2*x2 - 1)^3 + 231*(2*x2 - 1)^2 - 92)/(8*x2 - 8)^2;
  1/16*(312*x2 - 48)*(3*(x2 - 1)^4 - 30*(x2 - 1)^2*(2*x1 + x2 - 1)^2 + 35*(2*x1 + x2 - 1)^4) + 1/16*(108*x2 + 39*(2*x2 - 1)^2 - 37)*(12*(x2 - 1)^3 - 30*(x2 - 1)^2*(4*x1 + 2*x2 - 2) - 30*(2*x2 - 2)*(2*x1 + x2 - 1)^2 + 140*(2*x1 + x2 - 1)^3);
  1/8*(13*x2 - 1)*(150*x1*(x2 - 1)^4 - 315*(-x2 + 1)*((-2)*x1 - x2 + 1)^4 + 90*(x2 - 1)^5 - 210*(x2 - 1)^3*((-2)*x1 - x2 + 1)^2 + 210*(x2 - 1)^2*((-2)*x1 - x2 + 1)^3 - 63*((-2)*x1 - x2 + 1)^5)/(x2 - 1) + 13/8*(30*x1*(x2 - 1)^5 + 63*(-x2 + 1)*((-2)*x1 - x2 + 1)^5 + 15*(x2 - 1)^6 + 70*(x2 - 1)^3*((-2)*x1 - x2 + 1)^3)/(x2 - 1) - 1/8*(13*x2 - 1)*(30*x1*(x2 - 1)^5 + 63*(-x2 + 1)*((-2)*x1 - x2 + 1)^5 + 15*(x2 - 1)^6 + 70*(x2 - 1)^3*((-2)*x1 - x2 + 1)^3)/(x2 - 1)^2;
  (-15)/8*(x2 - 1)^5 + 105/16*(x2 - 1)^4*(4*x1 + 2*x2 - 2) + 105/4*(x2 - 1)^3*(2*x1 + x2 - 1)^2 - 315/4*(x2 - 1)^2*(2*x1 + x2 - 1)^3 - 315/16*(2*x2 - 2)*(2*x1 + x2 - 1)^4 + 693/8*(2*x1 + x2 - 1)^5;
  45045*x2^6 - 126126*x2^5 + 135135*x2^4 - 69300*x2^3 + 17325*x2^2 - 1890*x2 + 63;
  195/16*x2 + 5005/64*(2*x2 - 1)^6 + 3003/32*(2*x2 - 1)^5 - 2145/64*(2*x2 - 1)^4 - 935/16*(2*x2 - 1)^3 - 165/64*(2*x2 - 1)^2 - 1/64*(2*x1 + x2 - 1)*(1320*x2 - 60060*(2*x2 - 1)^5 - 60060*(2*x2 - 1)^4 + 17160*(2*x2 - 1)^3 + 22440*(2*x2 - 1)^2 - 1440) - 365/64;
  1/64*(-(x2 - 1)^2 + 3*(2*x1 + x2 - 1)^2)*((-7920)*x2 + 30030*(2*x2 - 1)^4 + 40040*(2*x2 - 1)^3 + 8580*(2*x2 - 1)^2 + 3190) + 1/64*(12*x1 + 4*x2 - 4)*((-770)*x2 + 3003*(2*x2 - 1)^5 + 5005*(2*x2 - 1)^4 + 1430*(2*x2 - 1)^3 - 990*(2*x2 - 1)^2 + 386);
  (-(6*x1*(x2 - 1)^3 + 3*(x2 - 1)^4 - 5*(x2 - 1)*(2*x1 + x2 - 1)^3))*(10608*x2 + 10920*(2*x2 - 1)^3 + 15288*(2*x2 - 1)^2 - 5136)/(32*x2 - 32) - (18*x1*(x2 - 1)^2 + 12*(x2 - 1)^3 - 15*(x2 - 1)*(2*x1 + x2 - 1)^2 - 5*(2*x1 + x2 - 1)^3)*(168*x2 + 1365*(2*x2 - 1)^4 + 2548*(2*x2 - 1)^3 + 1326*(2*x2 - 1)^2 - 127)/(32*x2 - 32) + 32*(6*x1*(x2 - 1)^3 + 3*(x2 - 1)^4 - 5*(x2 - 1)*(2*x1 + x2 - 1)^3)*(168*x2 + 1365*(2*x2 - 1)^4 + 2548*(2*x2 - 1)^3 + 1326*(2*x2 - 1)^2 - 127)/(32*x2 - 32)^2;
  1/64*(6552*x2 + 2730*(2*x2 - 1)^2 - 2418)*(3*(x2 - 1)^4 - 30*(x2 - 1)^2*(2*x1 + x2 - 1)^2 + 35*(2*x1 + x2 - 1)^4) + 1/64*(858*x2 + 455*(2*x2 - 1)^3 + 819*(2*x2 - 1)^2 - 372)*(12*(x2 - 1)^3 - 30*(x2 - 1)^2*(4*x1 + 2*x2 - 2) - 30*(2*x2 - 2)*(2*x1 + x2 - 1)^2 + 140*(2*x1 + x2 - 1)^3);
  1/32*(840*x2 - 112)*(30*x1*(x2 - 1)^5 + 63*(-x2 + 1)*((-2)*x1 - x2 + 1)^5 + 15*(x2 - 1)^6 + 70*(x2 - 1)^3*((-2)*x1 - x2 + 1)^3)/(x2 - 1) + 1/32*(308*x2 + 105*(2*x2 - 1)^2 - 101)*(150*x1*(x2 - 1)^4 - 315*(-x2 + 1)*((-2)*x1 - x2 + 1)^4 + 90*(x2 - 1)^5 - 210*(x2 - 1)^3*((-2)*x1 - x2 + 1)^2 + 210*(x2 - 1)^2*((-2)*x1 - x2 + 1)^3 - 63*((-2)*x1 - x2 + 1)^5)/(x2 - 1) - 1/32*(308*x2 + 105*(2*x2 - 1)^2 - 101)*(30*x1*(x2 - 1)^5 + 63*(-x2 + 1)*((-2)*x1 - x2 + 1)^5 + 15*(x2 - 1)^6 + 70*(x2 - 1)^3*((-2)*x1 - x2 + 1)^3)/(x2 - 1)^2;
  (-75)/16*(x2 - 1)^6 + 1575/16*(x2 - 1)^4*(2*x1 + x2 - 1)^2 - 4725/16*(x2 - 1)^2*(2*x1 + x2 - 1)^4 + 1/16*(15*x2 - 1)*((-30)*(x2 - 1)^5 + 105*(x2 - 1)^4*(4*x1 + 2*x2 - 2) + 420*(x2 - 1)^3*(2*x1 + x2 - 1)^2 - 1260*(x2 - 1)^2*(2*x1 + x2 - 1)^3 - 315*(2*x2 - 2)*(2*x1 + x2 - 1)^4 + 1386*(2*x1 + x2 - 1)^5) + 3465/16*(2*x1 + x2 - 1)^6;
  1/16*((-490)*x1*(x2 - 1)^6 - 3003*(-x2 + 1)*(2*x1 + x2 - 1)^6 - 280*(x2 - 1)^7 + 945*(x2 - 1)^5*(2*x1 + x2 - 1)^2 + 1575*(x2 - 1)^4*(2*x1 + x2 - 1)^3 - 3465*(x2 - 1)^3*(2*x1 + x2 - 1)^4 - 2079*(x2 - 1)^2*(2*x1 + x2 - 1)^5 + 429*(2*x1 + x2 - 1)^7)/(x2 - 1) - 1/16*((-70)*x1*(x2 - 1)^7 - 429*(-x2 + 1)*(2*x1 + x2 - 1)^7 - 35*(x2 - 1)^8 + 315*(x2 - 1)^5*(2*x1 + x2 - 1)^3 - 693*(x2 - 1)^3*(2*x1 + x2 - 1)^5)/(x2 - 1)^2;
  194480*x2^7 - 640640*x2^6 + 840840*x2^5 - 560560*x2^4 + 200200*x2^3 - 36960*x2^2 + 3080*x2 - 80;
  77/16*x2 + 2431/16*(2*x2 - 1)^7 + 3003/16*(2*x2 - 1)^6 - 3003/32*(2*x2 - 1)^5 - 5005/32*(2*x2 - 1)^4 + 231/8*(2*x2 - 1)^2 + 1/32*(2*x1 + x2 - 1)*(7392*x2 + 68068*(2*x2 - 1)^6 + 72072*(2*x2 - 1)^5 - 30030*(2*x2 - 1)^4 - 40040*(2*x2 - 1)^3 - 3542) - 49/16;
  1/32*(-(x2 - 1)^2 + 3*(2*x1 + x2 - 1)^2)*((-6240)*x2 + 37128*(2*x2 - 1)^5 + 54600*(2*x2 - 1)^4 + 10920*(2*x2 - 1)^3 - 10920*(2*x2 - 1)^2 + 3216) + 1/32*(12*x1 + 4*x2 - 4)*(96*x2 + 3094*(2*x2 - 1)^6 + 5460*(2*x2 - 1)^5 + 1365*(2*x2 - 1)^4 - 1820*(2*x2 - 1)^3 - 780*(2*x2 - 1)^2 - 23);
  (-(6*x1*(x2 - 1)^3 + 3*(x2 - 1)^4 - 5*(x2 - 1)*(2*x1 + x2 - 1)^3))*(15470*(2*x2 - 1)^4 + 25480*(2*x2 - 1)^3 + 10920*(2*x2 - 1)^2 - 390)/(16*x2 - 16) - (18*x1*(x2 - 1)^2 + 12*(x2 - 1)^3 - 15*(x2 - 1)*(2*x1 + x2 - 1)^2 - 5*(2*x1 + x2 - 1)^3)*((-390)*x2 + 1547*(2*x2 - 1)^5 + 3185*(2*x2 - 1)^4 + 1820*(2*x2 - 1)^3 + 174)/(16*x2 - 16) + 16*(6*x1*(x2 - 1)^3 + 3*(x2 - 1)^4 - 5*(x2 - 1)*(2*x1 + x2 - 1)^3)*((-390)*x2 + 1547*(2*x2 - 1)^5 + 3185*(2*x2 - 1)^4 + 1820*(2*x2 - 1)^3 + 174)/(16*x2 - 16)^2;
  1/32*(3*(x2 - 1)^4 - 30*(x2 - 1)^2*(2*x1 + x2 - 1)^2 + 35*(2*x1 + x2 - 1)^4)*(6720*x2 + 4760*(2*x2 - 1)^3 + 7560*(2*x2 - 1)^2 - 3024) + 1/32*(12*(x2 - 1)^3 - 30*(x2 - 1)^2*(4*x1 + 2*x2 - 2) - 30*(2*x2 - 2)*(2*x1 + x2 - 1)^2 + 140*(2*x1 + x2 - 1)^3)*(336*x2 + 595*(2*x2 - 1)^4 + 1260*(2*x2 - 1)^3 + 840*(2*x2 - 1)^2 - 171);
  1/8*(1320*x2 + 510*(2*x2 - 1)^2 - 465)*(30*x1*(x2 - 1)^5 + 63*(-x2 + 1)*((-2)*x1 - x2 + 1)^5 + 15*(x2 - 1)^6 + 70*(x2 - 1)^3*((-2)*x1 - x2 + 1)^3)/(x2 - 1) + 1/8*(195*x2 + 85*(2*x2 - 1)^3 + 165*(2*x2 - 1)^2 - 81)*(150*x1*(x2 - 1)^4 - 315*(-x2 + 1)*((-2)*x1 - x2 + 1)^4 + 90*(x2 - 1)^5 - 210*(x2 - 1)^3*((-2)*x1 - x2 + 1)^2 + 210*(x2 - 1)^2*((-2)*x1 - x2 + 1)^3 - 63*((-2)*x1 - x2 + 1)^5)/(x2 - 1) - 1/8*(195*x2 + 85*(2*x2 - 1)^3 + 165*(2*x2 - 1)^2 - 81)*(30*x1*(x2 - 1)^5 + 63*(-x2 + 1)*((-2)*x1 - x2 + 1)^5 + 15*(x2 - 1)^6 + 70*(x2 - 1)^3*((-2)*x1 - x2 + 1)^3)/(x2 - 1)^2;
  1/16*(272*x2 - 32)*((-5)*(x2 - 1)^6 + 105*(x2 - 1)^4*(2*x1 + x2 - 1)^2 - 315*(x2 - 1)^2*(2*x1 + x2 - 1)^4 + 231*(2*x1 + x2 - 1)^6) + 1/16*(104*x2 + 34*(2*x2 - 1)^2 - 33)*((-30)*(x2 - 1)^5 + 105*(x2 - 1)^4*(4*x1 + 2*x2 - 2) + 420*(x2 - 1)^3*(2*x1 + x2 - 1)^2 - 1260*(x2 - 1)^2*(2*x1 + x2 - 1)^3 - 315*(2*x2 - 2)*(2*x1 + x2 - 1)^4 + 1386*(2*x1 + x2 - 1)^5);
  (-(17*x2 - 1))*(490*x1*(x2 - 1)^6 + 280*(x2 - 1)^7 - 945*(x2 - 1)^5*(2*x1 + x2 - 1)^2 - 1575*(x2 - 1)^4*(2*x1 + x2 - 1)^3 + 3465*(x2 - 1)^3*(2*x1 + x2 - 1)^4 + 2079*(x2 - 1)^2*(2*x1 + x2 - 1)^5 - 3003*(x2 - 1)*(2*x1 + x2 - 1)^6 - 429*(2*x1 + x2 - 1)^7)/(16*x2 - 16) - 17*(70*x1*(x2 - 1)^7 + 35*(x2 - 1)^8 - 315*(x2 - 1)^5*(2*x1 + x2 - 1)^3 + 693*(x2 - 1)^3*(2*x1 + x2 - 1)^5 - 429*(x2 - 1)*(2*x1 + x2 - 1)^7)/(16*x2 - 16) + 16*(17*x2 - 1)*(70*x1*(x2 - 1)^7 + 35*(x2 - 1)^8 - 315*(x2 - 1)^5*(2*x1 + x2 - 1)^3 + 693*(x2 - 1)^3*(2*x1 + x2 - 1)^5 - 429*(x2 - 1)*(2*x1 + x2 - 1)^7)/(16*x2 - 16)^2;
  35/16*(x2 - 1)^7 - 315/32*(x2 - 1)^6*(4*x1 + 2*x2 - 2) - 945/16*(x2 - 1)^5*(2*x1 + x2 - 1)^2 + 3465/16*(x2 - 1)^4*(2*x1 + x2 - 1)^3 + 3465/16*(x2 - 1)^3*(2*x1 + x2 - 1)^4 - 9009/16*(x2 - 1)^2*(2*x1 + x2 - 1)^5 - 3003/32*(2*x2 - 2)*(2*x1 + x2 - 1)^6 + 6435/16*(2*x1 + x2 - 1)^7;
  831402*x2^8 - 3150576*x2^7 + 4900896*x2^6 - 4036032*x2^5 + 1891890*x2^4 - 504504*x2^3 + 72072*x2^2 - 4752*x2 + 99;
  (-105)/8*x2 + 37791/128*(2*x2 - 1)^8 + 5967/16*(2*x2 - 1)^7 - 7735/32*(2*x2 - 1)^6 - 6279/16*(2*x2 - 1)^5 + 1365/64*(2*x2 - 1)^4 + 1729/16*(2*x2 - 1)^3 + 273/32*(2*x2 - 1)^2 + 1/128*(2*x1 + x2 - 1)*(8736*x2 + 604656*(2*x2 - 1)^7 + 668304*(2*x2 - 1)^6 - 371280*(2*x2 - 1)^5 - 502320*(2*x2 - 1)^4 + 21840*(2*x2 - 1)^3 + 82992*(2*x2 - 1)^2 - 6048) + 791/128;
  1/64*(-(x2 - 1)^2 + 3*(2*x1 + x2 - 1)^2)*(6552*x2 + 176358*(2*x2 - 1)^6 + 278460*(2*x2 - 1)^5 + 46410*(2*x2 - 1)^4 - 91000*(2*x2 - 1)^3 - 30030*(2*x2 - 1)^2 - 2366) + 1/64*(12*x1 + 4*x2 - 4)*(910*x2 + 12597*(2*x2 - 1)^7 + 23205*(2*x2 - 1)^6 + 4641*(2*x2 - 1)^5 - 11375*(2*x2 - 1)^4 - 5005*(2*x2 - 1)^3 + 819*(2*x2 - 1)^2 - 448);
  (-(6*x1*(x2 - 1)^3 + 3*(x2 - 1)^4 - 5*(x2 - 1)*(2*x1 + x2 - 1)^3))*((-15960)*x2 + 81396*(2*x2 - 1)^5 + 149940*(2*x2 - 1)^4 + 71400*(2*x2 - 1)^3 - 5880*(2*x2 - 1)^2 + 7392)/(32*x2 - 32) - (18*x1*(x2 - 1)^2 + 12*(x2 - 1)^3 - 15*(x2 - 1)*(2*x1 + x2 - 1)^2 - 5*(2*x1 + x2 - 1)^3)*((-588)*x2 + 6783*(2*x2 - 1)^6 + 14994*(2*x2 - 1)^5 + 8925*(2*x2 - 1)^4 - 980*(2*x2 - 1)^3 - 1995*(2*x2 - 1)^2 + 317)/(32*x2 - 32) + 32*(6*x1*(x2 - 1)^3 + 3*(x2 - 1)^4 - 5*(x2 - 1)*(2*x1 + x2 - 1)^3)*((-588)*x2 + 6783*(2*x2 - 1)^6 + 14994*(2*x2 - 1)^5 + 8925*(2*x2 - 1)^4 - 980*(2*x2 - 1)^3 - 1995*(2*x2 - 1)^2 + 317)/(32*x2 - 32)^2;
  1/64*(3*(x2 - 1)^4 - 30*(x2 - 1)^2*(2*x1 + x2 - 1)^2 + 35*(2*x1 + x2 - 1)^4)*(9360*x2 + 29070*(2*x2 - 1)^4 + 55080*(2*x2 - 1)^3 + 31620*(2*x2 - 1)^2 - 5010) + 1/64*(12*(x2 - 1)^3 - 30*(x2 - 1)^2*(4*x1 + 2*x2 - 2) - 30*(2*x2 - 2)*(2*x1 + x2 - 1)^2 + 140*(2*x1 + x2 - 1)^3)*((-330)*x2 + 2907*(2*x2 - 1)^5 + 6885*(2*x2 - 1)^4 + 5270*(2*x2 - 1)^3 + 1170*(2*x2 - 1)^2 + 114);
  1/32*(13872*x2 + 7752*(2*x2 - 1)^3 + 13464*(2*x2 - 1)^2 - 5968)*(30*x1*(x2 - 1)^5 + 63*(-x2 + 1)*((-2)*x1 - x2 + 1)^5 + 15*(x2 - 1)^6 + 70*(x2 - 1)^3*((-2)*x1 - x2 + 1)^3)/(x2 - 1) + 1/32*(968*x2 + 969*(2*x2 - 1)^4 + 2244*(2*x2 - 1)^3 + 1734*(2*x2 - 1)^2 - 455)*(150*x1*(x2 - 1)^4 - 315*(-x2 + 1)*((-2)*x1 - x2 + 1)^4 + 90*(x2 - 1)^5 - 210*(x2 - 1)^3*((-2)*x1 - x2 + 1)^2 + 210*(x2 - 1)^2*((-2)*x1 - x2 + 1)^3 - 63*((-2)*x1 - x2 + 1)^5)/(x2 - 1) - 1/32*(30*x1*(x2 - 1)^5 + 63*(-x2 + 1)*((-2)*x1 - x2 + 1)^5 + 15*(x2 - 1)^6 + 70*(x2 - 1)^3*((-2)*x1 - x2 + 1)^3)*(968*x2 + 969*(2*x2 - 1)^4 + 2244*(2*x2 - 1)^3 + 1734*(2*x2 - 1)^2 - 455)/(x2 - 1)^2;
  1/128*(15912*x2 + 5814*(2*x2 - 1)^2 - 5406)*((-5)*(x2 - 1)^6 + 105*(x2 - 1)^4*(2*x1 + x2 - 1)^2 - 315*(x2 - 1)^2*(2*x1 + x2 - 1)^4 + 231*(2*x1 + x2 - 1)^6) + 1/128*(2550*x2 + 969*(2*x2 - 1)^3 + 1989*(2*x2 - 1)^2 - 1028)*((-30)*(x2 - 1)^5 + 105*(x2 - 1)^4*(4*x1 + 2*x2 - 2) + 420*(x2 - 1)^3*(2*x1 + x2 - 1)^2 - 1260*(x2 - 1)^2*(2*x1 + x2 - 1)^3 - 315*(2*x2 - 2)*(2*x1 + x2 - 1)^4 + 1386*(2*x1 + x2 - 1)^5);
  (-(1368*x2 - 144))*(70*x1*(x2 - 1)^7 + 35*(x2 - 1)^8 - 315*(x2 - 1)^5*(2*x1 + x2 - 1)^3 + 693*(x2 - 1)^3*(2*x1 + x2 - 1)^5 - 429*(x2 - 1)*(2*x1 + x2 - 1)^7)/(64*x2 - 64) - (540*x2 + 171*(2*x2 - 1)^2 - 167)*(490*x1*(x2 - 1)^6 + 280*(x2 - 1)^7 - 945*(x2 - 1)^5*(2*x1 + x2 - 1)^2 - 1575*(x2 - 1)^4*(2*x1 + x2 - 1)^3 + 3465*(x2 - 1)^3*(2*x1 + x2 - 1)^4 + 2079*(x2 - 1)^2*(2*x1 + x2 - 1)^5 - 3003*(x2 - 1)*(2*x1 + x2 - 1)^6 - 429*(2*x1 + x2 - 1)^7)/(64*x2 - 64) + 64*(540*x2 + 171*(2*x2 - 1)^2 - 167)*(70*x1*(x2 - 1)^7 + 35*(x2 - 1)^8 - 315*(x2 - 1)^5*(2*x1 + x2 - 1)^3 + 693*(x2 - 1)^3*(2*x1 + x2 - 1)^5 - 429*(x2 - 1)*(2*x1 + x2 - 1)^7)/(64*x2 - 64)^2;
  665/128*(x2 - 1)^8 - 5985/32*(x2 - 1)^6*(2*x1 + x2 - 1)^2 + 65835/64*(x2 - 1)^4*(2*x1 + x2 - 1)^4 - 57057/32*(x2 - 1)^2*(2*x1 + x2 - 1)^6 + 1/128*(19*x2 - 1)*(280*(x2 - 1)^7 - 1260*(x2 - 1)^6*(4*x1 + 2*x2 - 2) - 7560*(x2 - 1)^5*(2*x1 + x2 - 1)^2 + 27720*(x2 - 1)^4*(2*x1 + x2 - 1)^3 + 27720*(x2 - 1)^3*(2*x1 + x2 - 1)^4 - 72072*(x2 - 1)^2*(2*x1 + x2 - 1)^5 - 12012*(2*x2 - 2)*(2*x1 + x2 - 1)^6 + 51480*(2*x1 + x2 - 1)^7) + 122265/128*(2*x1 + x2 - 1)^8;
  1/128*(5670*x1*(x2 - 1)^8 - 90090*(-x2 + 1)^5*((-2)*x1 - x2 + 1)^4 - 90090*(-x2 + 1)^4*((-2)*x1 - x2 + 1)^5 - 109395*(-x2 + 1)*((-2)*x1 - x2 + 1)^8 + 3150*(x2 - 1)^9 - 13860*(x2 - 1)^7*((-2)*x1 - x2 + 1)^2 + 32340*(x2 - 1)^6*((-2)*x1 - x2 + 1)^3 - 180180*(x2 - 1)^3*((-2)*x1 - x2 + 1)^6 + 77220*(x2 - 1)^2*((-2)*x1 - x2 + 1)^7 - 12155*((-2)*x1 - x2 + 1)^9)/(x2 - 1) - 1/128*(630*x1*(x2 - 1)^9 + 18018*(-x2 + 1)^5*((-2)*x1 - x2 + 1)^5 + 12155*(-x2 + 1)*((-2)*x1 - x2 + 1)^9 + 315*(x2 - 1)^10 + 4620*(x2 - 1)^7*((-2)*x1 - x2 + 1)^3 + 25740*(x2 - 1)^3*((-2)*x1 - x2 + 1)^7)/(x2 - 1)^2].
