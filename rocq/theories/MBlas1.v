(* MBlas1.v: model of the vector functions axpy.c, mscale.c (vector part),
   madd.c (vector part), dot.c, asum.c, iamax.c and nrm2.c of src/blas. *)
From Coq Require Import ZArith Bool.
From Verif Require Import Mem MView MFlags MCopy MNum.
Local Open Scope Z_scope.
Local Open Scope prog_scope.

Section Blas1.
  Context {T : Type}.
  Variable K : num T.
  Local Notation "x +' y" := (add K x y) (at level 50, left associativity).
  Local Notation "x -' y" := (sub K x y) (at level 50, left associativity).
  Local Notation "x *' y" := (mul K x y) (at level 40, left associativity).
  Local Notation "x /' y" := (div K x y) (at level 40, left associativity).

  (* src/blas/axpy.c:30-69 armas_axpby_unsafe; kx, ky written as products *)
  Definition armas_axpby_unsafe (beta : T) (y : view) (alpha : T) (x : view) : M T unit :=
    unroll4 (armas_size y)
      (fun i =>
         v0 <- rd (elems y + (i + 0) * vinc y) ;; let y0 := v0 *' beta in
         v1 <- rd (elems y + (i + 1) * vinc y) ;; let y1 := v1 *' beta in
         v2 <- rd (elems y + (i + 2) * vinc y) ;; let y2 := v2 *' beta in
         v3 <- rd (elems y + (i + 3) * vinc y) ;; let y3 := v3 *' beta in
         x0 <- rd (elems x + (i + 0) * vinc x) ;;
         wr (elems y + (i + 0) * vinc y) (y0 +' alpha *' x0) ;;
         x1 <- rd (elems x + (i + 1) * vinc x) ;;
         wr (elems y + (i + 1) * vinc y) (y1 +' alpha *' x1) ;;
         x2 <- rd (elems x + (i + 2) * vinc x) ;;
         wr (elems y + (i + 2) * vinc y) (y2 +' alpha *' x2) ;;
         x3 <- rd (elems x + (i + 3) * vinc x) ;;
         wr (elems y + (i + 3) * vinc y) (y3 +' alpha *' x3))
      (fun i =>
         v0 <- rd (elems y + i * vinc y) ;; let y0 := v0 *' beta in
         x0 <- rd (elems x + i * vinc x) ;;
         wr (elems y + i * vinc y) (y0 +' alpha *' x0)).

  (* src/blas/axpy.c:83-105 armas_axpby *)
  Definition armas_axpby (beta : T) (y : view) (alpha : T) (x : view) : M T Z :=
    if negb (armas_isvector x && armas_isvector y) then ret (- ARMAS_ENEED_VECTOR)
    else if negb (armas_size x =? armas_size y) then ret (- ARMAS_ESIZE)
    else armas_axpby_unsafe beta y alpha x ;; ret 0.

  (* src/blas/axpy.c:118-125 armas_axpy *)
  Definition armas_axpy (y : view) (alpha : T) (x : view) : M T Z :=
    armas_axpby (one K) y alpha x.

  (* *p = op( *p );  as in  X[i] *= alpha *)
  Definition modify (p : Z) (op : T -> T) : M T unit := x <- rd p ;; wr p (op x).

  (* src/blas/mscale.c:31-58 vec_scale (op = multiply by alpha) and
     src/blas/madd.c:24-51 vec_add (op = add alpha), which differ in the
     operator only; x0[k] written as X[i*xinc] *)
  Definition vec_modify (X : view) (op : T -> T) (N : Z) : M T unit :=
    unroll4 N
      (fun i =>
         modify (elems X + (i + 0) * vinc X) op ;;
         modify (elems X + (i + 1) * vinc X) op ;;
         modify (elems X + (i + 2) * vinc X) op ;;
         modify (elems X + (i + 3) * vinc X) op)
      (fun i => modify (elems X + i * vinc X) op).

  Definition vec_scale (X : view) (alpha : T) (N : Z) : M T unit :=
    vec_modify X (fun x => x *' alpha) N.
  Definition vec_add (X : view) (alpha : T) (N : Z) : M T unit :=
    vec_modify X (fun x => x +' alpha) N.

  (* src/blas/mscale.c:85-102 armas_scale *)
  Definition armas_scale (x : view) (alpha : T) : M T Z :=
    if armas_size x =? 0 then ret 0
    else if negb (armas_isvector x) then ret (- ARMAS_ENEED_VECTOR)
    else vec_scale x alpha (armas_size x) ;; ret 0.

  (* src/blas/dot.c:29-64 vec_dot; state (c0,c1,c2,c3).  In the remainder the
     element with 3, 2, 1 elements left goes to c0, c1, c2. *)
  Definition vec_dot (X Y : view) (N : Z) : M T T :=
    c <- unroll4_acc N
      (fun i c => let '(c0, c1, c2, c3) := c in
         x0 <- rd (elems X + (i + 0) * vinc X) ;;
         x1 <- rd (elems X + (i + 1) * vinc X) ;;
         x2 <- rd (elems X + (i + 2) * vinc X) ;;
         x3 <- rd (elems X + (i + 3) * vinc X) ;;
         y0 <- rd (elems Y + (i + 0) * vinc Y) ;;
         y1 <- rd (elems Y + (i + 1) * vinc Y) ;;
         y2 <- rd (elems Y + (i + 2) * vinc Y) ;;
         y3 <- rd (elems Y + (i + 3) * vinc Y) ;;
         ret (c0 +' x0 *' y0, c1 +' x1 *' y1, c2 +' x2 *' y2, c3 +' x3 *' y3))
      (fun i c => let '(c0, c1, c2, c3) := c in
         x <- rd (elems X + i * vinc X) ;;
         y <- rd (elems Y + i * vinc Y) ;;
         ret (if N - i =? 3 then (c0 +' x *' y, c1, c2, c3)
              else if N - i =? 2 then (c0, c1 +' x *' y, c2, c3)
              else (c0, c1, c2 +' x *' y, c3)))
      (zero K, zero K, zero K, zero K) ;;
    let '(c0, c1, c2, c3) := c in ret (c0 +' c1 +' c2 +' c3).

  (* src/blas/dot.c:73-103 vec_dot_recursive; / on non-negative n is Z.quot = Z.div *)
  Fixpoint vec_dot_recursive (fuel : nat) (X Y : view) (n minsz : Z) : M T T :=
    match fuel with
    | O => fail
    | S fuel =>
      let n2 := Z.quot n 2 in
      let n4 := Z.quot n 4 in
      let nn := n - n2 - n4 in
      let sub := armas_subvector_unsafe in
      if n <? minsz then vec_dot X Y n
      else if Z.quot n 2 <? minsz then
        c0 <- vec_dot (sub X 0 n2) (sub Y 0 n2) n2 ;;
        c1 <- vec_dot (sub X n2 (n - n2)) (sub Y n2 (n - n2)) (n - n2) ;;
        ret (c0 +' c1)
      else if Z.quot n 4 <? minsz then
        c0 <- vec_dot (sub X 0 n4) (sub Y 0 n4) n4 ;;
        c1 <- vec_dot (sub X n4 (n2 - n4)) (sub Y n4 (n2 - n4)) (n2 - n4) ;;
        c2 <- vec_dot (sub X n2 n4) (sub Y n2 n4) n4 ;;
        c3 <- vec_dot (sub X (n2 + n4) nn) (sub Y (n2 + n4) nn) nn ;;
        ret (c0 +' c1 +' c2 +' c3)
      else
        c0 <- vec_dot_recursive fuel (sub X 0 n4) (sub Y 0 n4) n4 minsz ;;
        c1 <- vec_dot_recursive fuel (sub X n4 (n2 - n4)) (sub Y n4 (n2 - n4)) (n2 - n4) minsz ;;
        c2 <- vec_dot_recursive fuel (sub X n2 n4) (sub Y n2 n4) n4 minsz ;;
        c3 <- vec_dot_recursive fuel (sub X (n2 + n4) nn) (sub Y (n2 + n4) nn) nn minsz ;;
        ret (c0 +' c1 +' c2 +' c3)
    end.

  (* src/blas/dot.c:105-115 armas_adot_unsafe; *value is passed and returned *)
  Definition armas_adot_unsafe (fuel : nat) (blas1min : Z) (value alpha : T) (x y : view) : M T T :=
    dval <- (if blas1min =? 0 then vec_dot x y (armas_size y)
             else vec_dot_recursive fuel y x (armas_size y) blas1min) ;;
    ret (value +' dval *' alpha).

  (* src/blas/dot.c:117-122 armas_dot_unsafe *)
  Definition armas_dot_unsafe (fuel : nat) (blas1min : Z) (x y : view) : M T T :=
    armas_adot_unsafe fuel blas1min (zero K) (one K) x y.

  (* src/blas/dot.c:139-173 armas_adot; result code and new *value, value not null *)
  Definition armas_adot (fuel : nat) (blas1min optflags : Z) (value alpha : T) (x y : view)
    : M T (Z * T) :=
    if negb (armas_isvector x) then ret (-1, value)
    else if negb (armas_isvector y) then ret (-1, value)
    else if negb (armas_size x =? armas_size y) then ret (-1, value)
    else
      dval <- (if has optflags ARMAS_ONAIVE || (blas1min =? 0) then vec_dot y x (armas_size y)
               else vec_dot_recursive fuel y x (armas_size y) blas1min) ;;
      ret (0, value +' alpha *' dval).

  (* src/blas/dot.c:184-191 armas_dot *)
  Definition armas_dot (fuel : nat) (blas1min optflags : Z) (x y : view) : M T T :=
    r <- armas_adot fuel blas1min optflags (zero K) (one K) x y ;;
    ret (if fst r <? 0 then zero K else snd r).

  (* src/blas/asum.c:34-68 vec_asum *)
  Definition vec_asum (X : view) (N : Z) : M T T :=
    c <- unroll4_acc N
      (fun i c => let '(c0, c1, c2, c3) := c in
         x0 <- rd (elems X + (i + 0) * vinc X) ;;
         x1 <- rd (elems X + (i + 1) * vinc X) ;;
         x2 <- rd (elems X + (i + 2) * vinc X) ;;
         x3 <- rd (elems X + (i + 3) * vinc X) ;;
         ret (c0 +' abs K x0, c1 +' abs K x1, c2 +' abs K x2, c3 +' abs K x3))
      (fun i c => let '(c0, c1, c2, c3) := c in
         x <- rd (elems X + i * vinc X) ;;
         ret (if N - i =? 3 then (c0 +' abs K x, c1, c2, c3)
              else if N - i =? 2 then (c0, c1 +' abs K x, c2, c3)
              else (c0, c1, c2 +' abs K x, c3)))
      (zero K, zero K, zero K, zero K) ;;
    let '(c0, c1, c2, c3) := c in ret (c0 +' c1 +' c2 +' c3).

  (* one step of the compensated sum: (s, c) and |x| to the new (s, c) *)
  Definition kahan1 (s c ax : T) : T * T :=
    let y := ax -' c in let t := s +' y in (t, (t -' s) -' y).

  (* src/blas/asum.c:71-98 vec_asum_kahan *)
  Definition vec_asum_kahan (X : view) (N : Z) : M T T :=
    c <- for_acc 0 (N - 1) 2
      (fun k c => let '(s0, c0, s1, c1) := c in
         x0 <- rd (elems X + (k + 0) * vinc X) ;;
         x1 <- rd (elems X + (k + 1) * vinc X) ;;
         let '(s0, c0) := kahan1 s0 c0 (abs K x0) in
         let '(s1, c1) := kahan1 s1 c1 (abs K x1) in
         ret (s0, c0, s1, c1))
      (zero K, zero K, zero K, zero K) ;;
    let '(s0, c0, s1, c1) := c in
    let k := loop_end 0 (N - 1) 2 in
    if k =? N then ret (s0 +' s1)
    else
      x0 <- rd (elems X + (k + 0) * vinc X) ;;
      let '(s0, c0) := kahan1 s0 c0 (abs K x0) in
      ret (s0 +' s1).

  (* src/blas/asum.c:107-137 vec_asum_recursive *)
  Fixpoint vec_asum_recursive (fuel : nat) (X : view) (n minsz : Z) : M T T :=
    match fuel with
    | O => fail
    | S fuel =>
      let n2 := Z.quot n 2 in
      let n4 := Z.quot n 4 in
      let nn := n - n2 - n4 in
      let sub := armas_subvector_unsafe in
      if n <? minsz then vec_asum X n
      else if Z.quot n 2 <? minsz then
        c0 <- vec_asum (sub X 0 n2) n2 ;;
        c1 <- vec_asum (sub X n2 (n - n2)) (n - n2) ;;
        ret (c0 +' c1)
      else if Z.quot n 4 <? minsz then
        c0 <- vec_asum (sub X 0 n4) n4 ;;
        c1 <- vec_asum (sub X n4 (n2 - n4)) (n2 - n4) ;;
        c2 <- vec_asum (sub X n2 n4) n4 ;;
        c3 <- vec_asum (sub X (n2 + n4) nn) nn ;;
        ret (c0 +' c1 +' c2 +' c3)
      else
        c0 <- vec_asum_recursive fuel (sub X 0 n4) n4 minsz ;;
        c1 <- vec_asum_recursive fuel (sub X n4 (n2 - n4)) (n2 - n4) minsz ;;
        c2 <- vec_asum_recursive fuel (sub X n2 n4) n4 minsz ;;
        c3 <- vec_asum_recursive fuel (sub X (n2 + n4) nn) nn minsz ;;
        ret (c0 +' c1 +' c2 +' c3)
    end.

  (* src/blas/asum.c:144-165 armas_asum *)
  Definition armas_asum (fuel : nat) (blas1min optflags : Z) (x : view) : M T T :=
    if negb (armas_isvector x) then ret (zero K)
    else
      let o := Z.land optflags (ARMAS_ONAIVE + ARMAS_OKAHAN + ARMAS_ORECURSIVE) in
      if o =? ARMAS_OKAHAN then vec_asum_kahan x (armas_size x)
      else if o =? ARMAS_ONAIVE then vec_asum x (armas_size x)
      else vec_asum_recursive fuel x (armas_size x) blas1min.

  (* src/blas/iamax.c:95-115 vec_iamax2; state (ix, max), ep = X->elems + i*xinc *)
  Definition vec_iamax2 (X : view) (N : Z) : M T Z :=
    if N <=? 1 then ret 0
    else
      r <- for_acc 0 N 1
        (fun i r => let '(ix, mx) := r in
           c <- rd (elems X + i * vinc X) ;;
           let c0 := abs K c in
           ret (if ltb K mx c0 then (i, c0) else (ix, mx)))
        (0, zero K) ;;
      ret (fst r).

  (* src/blas/iamax.c:118-139 vec_iamin2; the pointer is advanced by one element
     after the first read and by xinc elements after every later one *)
  Definition vec_iamin2 (X : view) (N : Z) : M T Z :=
    if N <=? 1 then ret 0
    else
      c <- rd (elems X) ;;
      r <- for_acc 1 N 1
        (fun i r => let '(ix, mn, ep) := r in
           c <- rd ep ;;
           let c0 := abs K c in
           ret (if ltb K c0 mn then (i, c0, ep + vinc X) else (ix, mn, ep + vinc X)))
        (0, abs K c, elems X + 1) ;;
      ret (fst (fst r)).

  (* src/blas/iamax.c:152-167 armas_iamax *)
  Definition armas_iamax (x : view) : M T Z :=
    if negb (armas_isvector x) then ret (- ARMAS_ENEED_VECTOR)
    else if armas_size x =? 0 then ret (- ARMAS_ESIZE)
    else vec_iamax2 x (armas_size x).

  (* src/blas/iamax.c:172-182 armas_amax *)
  Definition armas_amax (x : view) : M T T :=
    imax <- armas_iamax x ;;
    if 0 <=? imax then v <- armas_get_at_unsafe x imax ;; ret (abs K v)
    else ret (zero K).

  (* src/blas/iamax.c:196-211 armas_iamin *)
  Definition armas_iamin (x : view) : M T Z :=
    if negb (armas_isvector x) then ret (-1)
    else if armas_size x =? 0 then ret (-1)
    else vec_iamin2 x (armas_size x).

  (* src/blas/nrm2.c:81-117 armas_nrm2; state (sum, scale) *)
  Definition armas_nrm2 (x : view) : M T T :=
    if negb (cols x =? 1) && negb (rows x =? 1) then ret (zero K)
    else if armas_size x =? 0 then ret (zero K)
    else if armas_size x =? 1 then v <- rd (elems x) ;; ret (abs K v)
    else
      r <- for_acc 0 (armas_size x) 1
        (fun i r => let '(sum, scale) := r in
           v <- rd (elems x + (i + 0) * vinc x) ;;
           if negb (eqb K v (zero K)) then
             let a0 := abs K v in
             if ltb K scale a0 then
               ret (one K +' sum *' ((scale /' a0) *' (scale /' a0)), a0)
             else
               ret (sum +' (a0 /' scale) *' (a0 /' scale), scale)
           else ret (sum, scale))
        (one K, zero K) ;;
      ret (snd r *' sqrt K (fst r)).
End Blas1.
