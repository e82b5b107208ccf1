(** test_equations.hpp: the differential equations shipped with the library, and functor::compute (functor.hpp). *)
From Coq Require Import Reals.
From Verif Require Import Model.Base Model.Scalar Model.LinAlg.
Local Open Scope sc_scope.
Local Open Scope mon_scope.

Section TestEquations.
  Context {T : Type} `{Scalar T} `{LinAlg T} {St : Type}.

  (** [y[i]]: not checked by Armadillo, undefined behaviour out of range *)
  Definition vraw (y : list T) (i : nat) : res T := match nth_error y i with Some a => Ok a | None => Err EUB end.

  (** functor.hpp:67-72, the default [compute]: (the value returned, the matrix [J] afterwards) *)
  Definition compute (F : functor T St) (t : T) (y : list T) (J : mat T) (calc_J : bool) : M St (list T * mat T) :=
    J <- (if calc_J then f_jac F t y else ret J) ;;
    v <- f_fun F t y ;;
    ret (v, J).

  (** test_equations.hpp:48-56, exponential.  [{l}] is the 1x1 matrix. *)
  Definition exponential (l : T) : functor T St :=
    Functor (fun t y => ret (vscale l y)) (fun t y => ret (of_rows (sZ 0) [[l]])).

  (** test_equations.hpp:73-81, harmonic *)
  Definition harmonic (w : T) : functor T St :=
    Functor (fun t y => y0 <- lift (vraw y 0) ;; y1 <- lift (vraw y 1) ;; ret [w *. y1; -. w *. y0])
            (fun t y => ret (of_rows (sZ 0) [[sZ 0; w]; [-. w; sZ 0]])).

  (** test_equations.hpp:97-112, vdpol *)
  Definition vdpol (mu : T) : functor T St :=
    Functor (fun t y => y0 <- lift (vraw y 0) ;; y1 <- lift (vraw y 1) ;;
               ret [y1; ((sZ 1 -. y0 *. y0) *. y1 -. y0) /. mu])
            (fun t y => y0 <- lift (vraw y 0) ;; y1 <- lift (vraw y 1) ;;
               ret (of_rows (sZ 0) [[slit 0 (-1); slit 10 (-1)];
                                    [-. (slit 20 (-1) *. y0 *. y1 +. slit 10 (-1)) /. mu; (slit 10 (-1) -. y0 *. y0) /. mu]])).

  (** test_equations.hpp:126-142, bruss *)
  Definition bruss (a b : T) : functor T St :=
    Functor (fun t y => y0 <- lift (vraw y 0) ;; y1 <- lift (vraw y 1) ;;
               ret [a +. y0 *. y0 *. y1 -. b *. y0 -. y0; b *. y0 -. y0 *. y0 *. y1])
            (fun t y => y0 <- lift (vraw y 0) ;; y1 <- lift (vraw y 1) ;;
               ret (of_rows (sZ 0) [[sZ 2 *. y0 *. y1 -. b -. sZ 1; y0 *. y0];
                                    [b -. sZ 2 *. y0 *. y1; -. y0 *. y0]])).

  (** test_equations.hpp:153-175, rober *)
  Definition rober : functor T St :=
    Functor (fun t y => y0 <- lift (vraw y 0) ;; y1 <- lift (vraw y 1) ;; y2 <- lift (vraw y 2) ;;
               ret [slit (-4) (-2) *. y0 +. slit 1 4 *. y1 *. y2;
                    slit 4 (-2) *. y0 -. slit 1 4 *. y1 *. y2 -. slit 3 7 *. y1 *. y1;
                    slit 3 7 *. y1 *. y1])
            (fun t y => y1 <- lift (vraw y 1) ;; y2 <- lift (vraw y 2) ;;
               ret (of_rows (sZ 0) [[slit (-4) (-2); slit 1 4 *. y2; slit 1 4 *. y1];
                                    [slit 4 (-2); slit (-1) 4 *. y2 -. slit 6 7 *. y1; slit (-1) 4 *. y1];
                                    [slit 0 (-1); slit 6 7 *. y1; slit 0 (-1)]])).

  (** test_equations.hpp:183-200, dimer; [irate] is set by the constructor *)
  Definition dimer (rate : T) : functor T St :=
    let irate := slit 10 (-1) /. rate in
    Functor (fun t y => y0 <- lift (vraw y 0) ;; y1 <- lift (vraw y 1) ;;
               ret [sZ (-2) *. rate *. y0 *. y0 +. sZ 2 *. irate *. y1; rate *. y0 *. y0 -. irate *. y1])
            (fun t y => y0 <- lift (vraw y 0) ;;
               ret (of_rows (sZ 0) [[sZ (-4) *. rate *. y0; sZ 2 *. irate]; [sZ 2 *. rate *. y0; -. irate]])).

  (** test_equations.hpp:219-225 and 237-245, stiff_eq *)
  Definition stiff_A : mat T := of_rows (sZ 0) [[slit 0 (-1); slit 10 (-1)]; [slit (-10000) (-1); slit (-10010) (-1)]].
  Definition stiff_eq : functor T St := Functor (fun t y => lift (mv stiff_A y)) (fun t y => ret stiff_A).

  (** test_equations.hpp:491-512, kinetic_4; [y(i)] is checked *)
  Definition kinetic_4 (b2 b3 b4 : T) : functor T St :=
    Functor (fun t y => y0 <- lift (vget y 0) ;; y1 <- lift (vget y 1) ;; y2 <- lift (vget y 2) ;; y3 <- lift (vget y 3) ;;
               ret [sZ (-2) *. y0 *. y0 -. y0 *. (y1 +. y2) +. (sZ 2 *. b2 *. y1 +. b3 *. y2 +. b4 *. y3);
                    y0 *. y0 -. y0 *. y1 +. b3 *. y2 -. b2 *. y1;
                    y0 *. y1 -. y0 *. y2 +. b4 *. y3 -. b3 *. y2;
                    y0 *. y2 -. b4 *. y3])
            (fun t y => y0 <- lift (vget y 0) ;; y1 <- lift (vget y 1) ;; y2 <- lift (vget y 2) ;;
               ret (of_rows (sZ 0) [[sZ (-4) *. y0 -. y1 -. y2; -. y0 +. sZ 2 *. b2; -. y0 +. b3; b4];
                                    [sZ 2 *. y0 -. y1; -. y0 -. b2; b3; slit 0 (-1)];
                                    [y1 -. y2; y0; -. y0 -. b3; b4];
                                    [y2; sZ 0; y0; -. b4]])).

  (** test_equations.hpp:526-540, lorenz *)
  Definition lorenz (s r b : T) : functor T St :=
    Functor (fun t y => y0 <- lift (vget y 0) ;; y1 <- lift (vget y 1) ;; y2 <- lift (vget y 2) ;;
               ret [s *. (y1 -. y0); y0 *. (r -. y2) -. y1; y0 *. y1 -. b *. y2])
            (fun t y => y0 <- lift (vget y 0) ;; y1 <- lift (vget y 1) ;; y2 <- lift (vget y 2) ;;
               ret (of_rows (sZ 0) [[-. s; s; sZ 0]; [r -. y2; slit (-10) (-1); -. y0]; [y1; y0; -. b]])).

  (** test_equations.hpp:263-305, three_body::fun.  [tb_cube] is r^3 = r^2 * sqrt(r^2) (lines 285-295).  The members [m1r], [m2r]
      (lines 258-261, 480) are never read, and the setters (lines 462-477) assign a mass, here a parameter: neither is modelled. *)
  Definition tb_cube (dx dy : T) : T := let r2 := dx *. dx +. dy *. dy in r2 *. ssqrt r2.
  Definition three_body_fun (m1 m2 m3 t : T) (y : list T) : res (list T) :=
    y0 <-- vraw y 0 ;; y1 <-- vraw y 1 ;; y2 <-- vraw y 2 ;; y3 <-- vraw y 3 ;; y4 <-- vraw y 4 ;; y5 <-- vraw y 5 ;;
    y6 <-- vraw y 6 ;; y7 <-- vraw y 7 ;; y8 <-- vraw y 8 ;; y9 <-- vraw y 9 ;; y10 <-- vraw y 10 ;; y11 <-- vraw y 11 ;;
    let x2mx1 := y2 -. y0 in let y2my1 := y3 -. y1 in let x3mx1 := y4 -. y0 in
    let y3my1 := y5 -. y1 in let x3mx2 := y4 -. y2 in let y3my2 := y5 -. y3 in
    let r12_3 := tb_cube x2mx1 y2my1 in let r13_3 := tb_cube x3mx1 y3my1 in let r23_3 := tb_cube x3mx2 y3my2 in
    Ok [y6 /. m1; y7 /. m1; y8 /. m2; y9 /. m2; y10 /. m3; y11 /. m3;
        m1 *. m3 *. x3mx1 /. r13_3 +. m1 *. m2 *. x2mx1 /. r12_3;
        m1 *. m3 *. y3my1 /. r13_3 +. m1 *. m2 *. y2my1 /. r12_3;
        -. m1 *. m2 *. x2mx1 /. r12_3 +. m2 *. m3 *. x3mx2 /. r23_3;
        -. m1 *. m2 *. y2my1 /. r12_3 +. m2 *. m3 *. x3mx2 /. r23_3;
        -. m2 *. m3 *. x3mx2 /. r23_3 -. m1 *. m3 *. x3mx1 /. r13_3;
        -. m2 *. m3 *. y3my2 /. r23_3 -. m1 *. m3 *. y3my1 /. r13_3].

  (** test_equations.hpp:345-415: the entries assigned in the Jacobian of three_body, below and on the diagonal; [tb_find] also
      finds the mirrored ones (lines 389-407), all others are zero (line 342) *)
  Definition tb_entries (m1 m2 m3 x2mx1 y2my1 x3mx1 y3my1 x3mx2 y3my2 : T) : list (nat * nat * T) :=
    let x2mx1_2 := x2mx1 *. x2mx1 in let y2my1_2 := y2my1 *. y2my1 in let x3mx1_2 := x3mx1 *. x3mx1 in
    let y3my1_2 := y3my1 *. y3my1 in let x3mx2_2 := x3mx2 *. x3mx2 in let y3my2_2 := y3my2 *. y3my2 in
    let r12_2 := x2mx1_2 +. y2my1_2 in let r13_2 := x3mx1_2 +. y3my1_2 in let r23_2 := x3mx2_2 +. y3my2_2 in
    let r12_3 := r12_2 *. ssqrt r12_2 in let r13_3 := r13_2 *. ssqrt r13_2 in let r23_3 := r23_2 *. ssqrt r23_2 in
    let r12_5 := r12_3 *. r12_2 in let r13_5 := r13_3 *. r13_2 in let r23_5 := r23_3 *. r23_2 in
    let three := sZ 3 in
    [ (6, 6, -. m1 *. m3 /. r13_3 +. three *. m1 *. m3 *. x3mx1_2 /. r13_5 -. m1 *. m2 /. r12_3 +. three *. m1 *. m2 *. x2mx1_2 /. r12_5);
      (8, 8, -. m2 *. m3 /. r23_3 +. three *. m2 *. m3 *. x3mx2_2 /. r23_5 -. m1 *. m2 /. r12_3 +. three *. m1 *. m2 *. x2mx1_2 /. r12_5);
      (10, 10, -. m1 *. m3 /. r13_3 +. three *. m1 *. m3 *. x3mx1_2 /. r13_5 -. m2 *. m3 /. r23_3 +. three *. m2 *. m3 *. x3mx2_2 /. r23_5);
      (7, 7, -. m1 *. m3 /. r13_3 +. three *. m1 *. m3 *. y3my1_2 /. r13_5 -. m1 *. m2 /. r12_3 +. three *. m1 *. m2 *. y2my1_2 /. r12_5);
      (9, 9, -. m2 *. m3 /. r23_3 +. three *. m2 *. m3 *. y3my2_2 /. r23_5 -. m1 *. m2 /. r13_3 +. three *. m1 *. m2 *. y2my1_2 /. r12_5);
      (11, 11, -. m1 *. m3 /. r13_3 +. three *. m1 *. m3 *. y3my1_2 /. r13_5 -. m2 *. m3 /. r23_3 +. three *. m2 *. m3 *. y3my2_2 /. r23_5);
      (7, 6, three *. m1 *. m3 *. x3mx1 *. y3my1 /. r13_5 +. three *. m1 *. m2 *. x2mx1 *. y2my1 /. r12_5);
      (8, 6, m1 *. m2 /. r12_3 -. three *. m1 *. m2 *. x2mx1_2 /. r12_5);
      (9, 6, sZ (-3) *. m1 *. m2 *. x2mx1 *. y2my1 /. r12_5);
      (10, 6, m1 *. m3 /. r13_3 -. three *. m1 *. m3 *. x3mx1_2 /. r13_5);
      (11, 6, sZ (-3) *. m1 *. m3 *. x3mx1 *. y3my1 /. r13_5);
      (8, 7, sZ (-3) *. m1 *. m2 *. x2mx1 *. y2my1 /. r12_5);
      (9, 7, m1 *. m2 /. r12_3 -. three *. m1 *. m2 *. y2my1_2 /. r12_5);
      (10, 7, sZ (-3) *. m1 *. m3 *. x3mx1 *. y3my1 /. r13_5);
      (11, 7, m1 *. m3 /. r13_2 -. three *. m1 *. m3 *. y3my1_2 /. r13_5);
      (9, 8, three *. m2 *. m3 *. x3mx2 *. y3my2 /. r23_5 +. three *. m1 *. m2 *. x2mx1 *. y2my1 /. r12_5);
      (10, 8, m2 *. m3 /. r23_3 -. three *. m2 *. m3 *. x3mx2_2 /. r23_5);
      (11, 8, sZ (-3) *. m2 *. m3 *. x3mx2 *. y3my2 /. r23_5);
      (10, 9, sZ (-3) *. m2 *. m3 *. x3mx2 *. y3my2 /. r23_5);
      (11, 9, m2 *. m3 /. r23_3 -. three *. m2 *. m3 *. y3my2_2 /. r23_5);
      (11, 10, three *. m2 *. m3 *. x3mx2 *. y3my2 /. r23_5 +. three *. m1 *. m3 *. x3mx1 *. y3my1 /. r13_5);
      (0, 0, slit 10 (-1) /. m1); (1, 1, slit 10 (-1) /. m1); (2, 2, slit 10 (-1) /. m2); (3, 3, slit 10 (-1) /. m2);
      (4, 4, slit 10 (-1) /. m3); (5, 5, slit 10 (-1) /. m3) ].
  Definition tb_find (l : list (nat * nat * T)) (i j : nat) : T :=
    match find (fun e => let '(p, q, _) := e in (p =? Nat.max i j) && (q =? Nat.min i j)) l with
    | Some (_, _, v) => v
    | None => sZ 0
    end.
  (** test_equations.hpp:307-421, three_body::jac *)
  Definition three_body_jac (m1 m2 m3 t : T) (y : list T) : res (mat T) :=
    y0 <-- vraw y 0 ;; y1 <-- vraw y 1 ;; y2 <-- vraw y 2 ;; y3 <-- vraw y 3 ;; y4 <-- vraw y 4 ;; y5 <-- vraw y 5 ;;
    Ok (mneg (mtab 12 12 (tb_find (tb_entries m1 m2 m3 (y2 -. y0) (y3 -. y1) (y4 -. y0) (y5 -. y1) (y4 -. y2) (y5 -. y3))))).
  Definition three_body (m1 m2 m3 : T) : functor T St :=
    Functor (fun t y => lift (three_body_fun m1 m2 m3 t y)) (fun t y => lift (three_body_jac m1 m2 m3 t y)).

  (** test_equations.hpp:424-438, three_body::kin_energy *)
  Definition three_body_kin (y : list T) : res T :=
    y6 <-- vraw y 6 ;; y7 <-- vraw y 7 ;; y8 <-- vraw y 8 ;; y9 <-- vraw y 9 ;; y10 <-- vraw y 10 ;; y11 <-- vraw y 11 ;;
    Ok (slit 5 (-1) *. (y6 *. y6 +. y7 *. y7 +. (y8 *. y8 +. y9 *. y9) +. (y10 *. y10 +. y11 *. y11))).
  (** test_equations.hpp:440-460, three_body::pot_energy *)
  Definition three_body_pot (m1 m2 m3 : T) (y : list T) : res T :=
    y0 <-- vraw y 0 ;; y1 <-- vraw y 1 ;; y2 <-- vraw y 2 ;; y3 <-- vraw y 3 ;; y4 <-- vraw y 4 ;; y5 <-- vraw y 5 ;;
    let dist dx dy := ssqrt (dx *. dx +. dy *. dy) in
    Ok (-. m1 *. m2 /. dist (y2 -. y0) (y3 -. y1) -. m1 *. m3 /. dist (y4 -. y0) (y5 -. y1) -. m2 *. m3 /. dist (y4 -. y2) (y5 -. y3)).
End TestEquations.

(** The exact solutions, with the exponential and trigonometric functions over the reals only: test_equations.hpp:43-46
    (exponential::sol), 68-71 (harmonic::sol), 227-235 (stiff_eq::sol). *)
Local Open Scope R_scope.
Definition exponential_sol (l t : R) : list R := [exp (l * t)].
Definition harmonic_sol (w t : R) : list R := [sin (w * t); cos (w * t)].
Definition stiff_sol (t : R) : list R :=
  [- exp (-1000 * t) / 999 + 1000 * exp (- t) / 999; (1000 * exp (-1000 * t) - 1000 * exp (- t)) / 999].
