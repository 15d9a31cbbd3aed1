(* MEft.v: model of the error-free transformations of src/include/eft.h and
   src/include/x86_64/eftops.h and of the extended precision vector functions
   src/eblas/{asum_ext,dot_ext,axpy_ext}.c.
   The operations of num are those of the floating-point type, each rounded once: the
   intermediate results are stored in variables of the type (volatile in eft.h, vector
   registers in x86_64/eftops.h) and the compiler does not contract products with additions.
   Simplification: the inline assembly of x86_64/eftops.h is taken to perform the
   instructions it lists on its operands, with no two operands in one register. *)
From Coq Require Import ZArith Bool.
From Verif Require Import Mem MView MFlags MCopy MNum.
Local Open Scope Z_scope.
Local Open Scope prog_scope.

Section Eft.
  Context {T : Type}.
  Variable K : num T.
  (* __factor_f32, __factor_f64 (eft.h:34-40) *)
  Variable fct : T.
  (* vfmsub231ss and the like: a*b + c rounded once (x86_64/eftops.h:150-170) *)
  Variable fma : T -> T -> T -> T.
  Local Notation "x +' y" := (add K x y) (at level 50, left associativity).
  Local Notation "x -' y" := (sub K x y) (at level 50, left associativity).
  Local Notation "x *' y" := (mul K x y) (at level 40, left associativity).
  Local Notation "x /' y" := (div K x y) (at level 40, left associativity).

  (* eft.h:77-86 __twosum_base; the same operations in x86_64/eftops.h:60-86 *)
  Definition twosum (a b : T) : T * T :=
    let x := a +' b in
    let z := x -' a in
    let w := x -' z in
    let w := a -' w in
    let z := b -' z in
    (x, w +' z).

  (* eft.h:88-94 __fastsum_base; x86_64/eftops.h:88-108 *)
  Definition fastsum (a b : T) : T * T :=
    let x := a +' b in
    let z := a -' x in
    (x, z +' b).

  (* eft.h:124-131 __split_base; x86_64/eftops.h:110-130 *)
  Definition split (a : T) : T * T :=
    let z := fct *' a in
    let x := z -' a in
    let x := z -' x in
    (x, a -' x).

  (* eft.h:96-112 __twoprod_base; x86_64/eftops.h:207-241 without fused operations *)
  Definition twoprod (ah bh : T) : T * T :=
    let z1 := fct *' ah in
    let a1 := z1 -' ah in
    let a1 := z1 -' a1 in
    let a2 := ah -' a1 in
    let z2 := fct *' bh in
    let b1 := z2 -' bh in
    let b1 := z2 -' b1 in
    let b2 := bh -' b1 in
    let x0 := ah *' bh in
    let y0 := ((x0 -' a1 *' b1) -' a2 *' b1) -' a1 *' b2 in
    let y0 := a2 *' b2 -' y0 in
    (x0, y0).

  (* x86_64/eftops.h:150-170 __twoprod_base with fused operations *)
  Definition twoprod_fma (a b : T) : T * T :=
    let x := a *' b in (x, fma a b (opp K x)).

  (* eft.h:114-122 __approx_twodiv_base *)
  Definition approx_twodiv (a b : T) : T * T :=
    let x := a /' b in
    let '(v, w) := twoprod x b in
    let y := a -' v in
    let y := y -' w in
    (x, y /' b).

  (* x86_64/eftops.h:243-288 __approx_twodiv_base without fused operations: line 268
     multiplies a*b where the comment above it has x*b *)
  Definition approx_twodiv_avx (a b : T) : T * T :=
    let x := a /' b in
    let '(a1, a2) := split x in
    let '(b1, b2) := split b in
    let v := a *' b in
    let w := ((v -' a1 *' b1) -' a2 *' b1) -' a1 *' b2 in
    let w := a2 *' b2 -' w in
    let v := a -' v in
    let v := v -' w in
    (x, v /' b).

End Eft.

(* src/include/armas.h:74-76 *)
Definition ARMAS_ABS : Z := ARMAS_ABSA.

Section Ext.
  Context {T : Type}.
  Variable K : num T.
  (* the twoprod of the build: twoprod or twoprod_fma (eft.h:42-52) *)
  Variable TP : T -> T -> T * T.
  Local Notation "x +' y" := (add K x y) (at level 50, left associativity).
  Local Notation "x *' y" := (mul K x y) (at level 40, left associativity).

  (* --------------------------------------------------------- asum_ext.c *)

  (* twosum(&c, &z, c, x); a += z;   on the pair (c, a) *)
  Definition acc_sum (ca : T * T) (x : T) : T * T :=
    let '(c, z) := twosum K (fst ca) x in (c, snd ca +' z).

  (* asum_ext.c:26-52 ext_asum2s: (h, l).  Loop of two elements, one left over *)
  Definition ext_asum2s (X : view) (N : Z) : M T (T * T) :=
    st <- for_acc 0 (N - 1) 2 (fun i st =>
            x0 <- rd (elems X + (i + 0) * vinc X) ;;
            x1 <- rd (elems X + (i + 1) * vinc X) ;;
            ret (acc_sum (fst st) (abs K x0), acc_sum (snd st) (abs K x1)))
          ((zero K, zero K), (zero K, zero K)) ;;
    let i := loop_end 0 (N - 1) 2 in
    st <- (if negb (i =? N) then x <- rd (elems X + i * vinc X) ;; ret (acc_sum (fst st) (abs K x), snd st)
           else ret st) ;;
    let '((c0, a0), (c1, a1)) := st in
    let '(c0, z0) := twosum K c0 c1 in
    ret (c0, a0 +' (a1 +' z0)).

  (* asum_ext.c:54-100 ext_sum2s: (h, l) *)
  Definition ext_sum2s (X : view) (N : Z) : M T (T * T) :=
    st <- unroll4_acc N
      (fun i st => let '(s0, s1, s2, s3) := st in
         x0 <- rd (elems X + (i + 0) * vinc X) ;;
         x1 <- rd (elems X + (i + 1) * vinc X) ;;
         x2 <- rd (elems X + (i + 2) * vinc X) ;;
         x3 <- rd (elems X + (i + 3) * vinc X) ;;
         ret (acc_sum s0 x0, acc_sum s1 x1, acc_sum s2 x2, acc_sum s3 x3))
      (fun i st => let '(s0, s1, s2, s3) := st in
         x <- rd (elems X + i * vinc X) ;;
         ret (if N - i =? 3 then (acc_sum s0 x, s1, s2, s3)
              else if N - i =? 2 then (s0, acc_sum s1 x, s2, s3)
              else (s0, s1, acc_sum s2 x, s3)))
      ((zero K, zero K), (zero K, zero K), (zero K, zero K), (zero K, zero K)) ;;
    let '((c0, a0), (c1, a1), (c2, a2), (c3, a3)) := st in
    let a0 := a0 +' ((a1 +' a2) +' a3) in
    ret (acc_sum (acc_sum (acc_sum (c0, a0) c1) c2) c3).

  (* asum_ext.c:109-114 armas_ext_sum_unsafe *)
  Definition armas_ext_sum_unsafe (X : view) : M T T :=
    r <- ext_sum2s X (armas_size X) ;; ret (fst r +' snd r).

  (* asum_ext.c:135-163 armas_ext_sum, result not null; the return value and *result
     (res: what it held before) *)
  Definition armas_ext_sum (res alpha : T) (X : view) (flags : Z) : M T (Z * T) :=
    if negb (armas_isvector X) then ret (- ARMAS_ENEED_VECTOR, res)
    else
      r <- (if has flags ARMAS_ABS then ext_asum2s X (armas_size X) else ext_sum2s X (armas_size X)) ;;
      let '(h, l) := r in
      if negb (eqb K alpha (one K)) then
        let '(res, q) := TP alpha h in
        ret (0, q +' alpha *' l)
      else ret (0, h +' l).

  (* ---------------------------------------------------------- dot_ext.c *)

  (* twoprod(&h, &p, x, y); twosum(&s, &z, s, h); c += z + p;   on the pair (s, c) *)
  Definition acc_prod (sc : T * T) (x y : T) : T * T :=
    let '(h, p) := TP x y in
    let '(s, z) := twosum K (fst sc) h in
    (s, snd sc +' (z +' p)).

  (* dot_ext.c:77-106 armas_ext_adot_unsafe; ( *h, *l ) is passed and returned *)
  Definition armas_ext_adot_unsafe (h l alpha : T) (X Y : view) : M T (T * T) :=
    if eqb K alpha (zero K) then ret (h, l)
    else
      sc <- for_acc 0 (armas_size X) 1 (fun i sc =>
              x <- rd (elems X + (i + 0) * vinc X) ;;
              y <- rd (elems Y + (i + 0) * vinc Y) ;;
              ret (acc_prod sc x y)) (zero K, zero K) ;;
      let '(s0, c0) := sc in
      let '(h0, p0) := TP s0 alpha in
      let '(s0, z0) := fastsum K h h0 in
      let c0 := ((l +' p0) +' alpha *' c0) +' z0 in
      ret (fastsum K s0 c0).

  (* dot_ext.c:171-193 armas_ext_adot; the return value, the error stored in the
     configuration (0: none) and *result *)
  Definition armas_ext_adot (res alpha : T) (x y : view) : M T (Z * Z * T) :=
    if negb (armas_isvector x) || negb (armas_isvector y) then ret (-1, ARMAS_ENEED_VECTOR, res)
    else if negb (armas_size x =? armas_size y) then ret (-1, ARMAS_ESIZE, res)
    else r <- armas_ext_adot_unsafe (zero K) (zero K) alpha x y ;; ret (0, 0, fst r +' snd r).

  (* --------------------------------------------------------- axpy_ext.c *)

  (* axpy_ext.c:38-47 and 53-55: (p + c) + y0  with  (x0, p) = x*alpha, (y0, c) = x0 + y *)
  Definition axpy1 (alpha x y : T) : T :=
    let '(x0, p0) := TP x alpha in
    let '(y0, c0) := twosum K x0 y in
    (p0 +' c0) +' y0.

  (* axpy_ext.c:27-57 armas_ext_axpy_unsafe; both elements are read before they are
     written *)
  Definition armas_ext_axpy_unsafe (Y : view) (alpha : T) (X : view) : M T unit :=
    let N := armas_size X in
    for_up 0 (N - 1) 2 (fun i =>
      x0 <- rd (elems X + (i + 0) * vinc X) ;;
      x1 <- rd (elems X + (i + 1) * vinc X) ;;
      y0 <- rd (elems Y + (i + 0) * vinc Y) ;;
      y1 <- rd (elems Y + (i + 1) * vinc Y) ;;
      wr (elems Y + (i + 0) * vinc Y) (axpy1 alpha x0 y0) ;;
      wr (elems Y + (i + 1) * vinc Y) (axpy1 alpha x1 y1)) ;;
    let i := loop_end 0 (N - 1) 2 in
    if i =? N then ret tt
    else
      x0 <- rd (elems X + i * vinc X) ;;
      y0 <- rd (elems Y + i * vinc Y) ;;
      wr (elems Y + i * vinc Y) (axpy1 alpha x0 y0).

  (* axpy_ext.c:75-88 and 94-98 *)
  Definition axpby1 (beta alpha x y : T) : T :=
    let '(x0, p0) := TP x alpha in
    let '(y0, c0) := TP y beta in
    let p0 := p0 +' c0 in
    let '(y0, c0) := twosum K x0 y0 in
    (p0 +' c0) +' y0.

  (* axpy_ext.c:59-100 armas_ext_axpby_unsafe *)
  Definition armas_ext_axpby_unsafe (beta : T) (Y : view) (alpha : T) (X : view) : M T unit :=
    if eqb K beta (one K) then armas_ext_axpy_unsafe Y alpha X
    else
      let N := armas_size X in
      for_up 0 (N - 1) 2 (fun i =>
        x0 <- rd (elems X + (i + 0) * vinc X) ;;
        x1 <- rd (elems X + (i + 1) * vinc X) ;;
        y0 <- rd (elems Y + (i + 0) * vinc Y) ;;
        y1 <- rd (elems Y + (i + 1) * vinc Y) ;;
        wr (elems Y + (i + 0) * vinc Y) (axpby1 beta alpha x0 y0) ;;
        wr (elems Y + (i + 1) * vinc Y) (axpby1 beta alpha x1 y1)) ;;
      let i := loop_end 0 (N - 1) 2 in
      if i =? N then ret tt
      else
        x0 <- rd (elems X + i * vinc X) ;;
        y0 <- rd (elems Y + i * vinc Y) ;;
        wr (elems Y + i * vinc Y) (axpby1 beta alpha x0 y0).

  (* axpy_ext.c:143-165 armas_ext_axpby *)
  Definition armas_ext_axpby (beta : T) (y : view) (alpha : T) (x : view) : M T (Z * Z) :=
    if negb (armas_isvector x && armas_isvector y) then ret (-1, ARMAS_ENEED_VECTOR)
    else if negb (armas_size x =? armas_size y) then ret (-1, ARMAS_ESIZE)
    else armas_ext_axpby_unsafe beta y alpha x ;; ret (0, 0).
End Ext.
