(* MGivens.v: model of the Givens rotations, src/lapack/{gvrot.h,rotate.c,givens.c}. *)
From Coq Require Import ZArith Bool.
From Verif Require Import Mem MView MFlags MNum.
Local Open Scope Z_scope.
Local Open Scope prog_scope.

Section Givens.
  Context {T : Type} (K : num T).
  Local Notation "x +' y" := (add K x y) (at level 50, left associativity).
  Local Notation "x -' y" := (sub K x y) (at level 50, left associativity).
  Local Notation "x *' y" := (mul K x y) (at level 40, left associativity).
  Local Notation "x /' y" := (div K x y) (at level 40, left associativity).

  (* src/lapack/gvrot.h:70-98 gvrotg, the portable version: the triple (c, s, r).  SIGN(b), the sign bit,
     is b < 0: here b is not zero.  The AVX version (:16-65) computes the same expressions of t and u
     for both cases at once and is not modelled. *)
  Definition gvrotg (a b : T) : T * T * T :=
    if eqb K b (zero K) then (one K, zero K, a)
    else if eqb K a (zero K) then (zero K, one K, b)
    else if ltb K (abs K a) (abs K b) then
      let t := a /' b in
      let u := sqrt K (one K +' t *' t) in
      let u := if ltb K b (zero K) then opp K u else u in
      let s := one K /' u in
      (s *' t, s, b *' u)
    else
      let t := b /' a in
      let u := sqrt K (one K +' t *' t) in
      let c := one K /' u in
      (c, c *' t, a *' u).

  (* src/lapack/rotate.c:36-39 armas_gvcompute *)
  Definition armas_gvcompute (a b : T) : T * T * T := gvrotg a b.

  (* src/lapack/rotate.c:54-59 armas_gvrotate: the pair (v0, v1) *)
  Definition armas_gvrotate (c s y0 y1 : T) : T * T :=
    (c *' y0 +' s *' y1, c *' y1 -' s *' y0).

  (* src/lapack/givens.c:72-86 gvleft *)
  Definition gvleft (A : view) (c s : T) (r1 r2 col ncol : Z) : M T unit :=
    let y0 := elems A + (col * step A + r1) in
    let y1 := elems A + (col * step A + r2) in
    for_up 0 ncol 1 (fun k =>
      let n := k * step A in
      a <- rd (y0 + n) ;;
      b <- rd (y1 + n) ;;
      wr (y1 + n) (c *' b -' s *' a) ;;
      wr (y0 + n) (c *' a +' s *' b)).

  (* src/lapack/givens.c:96-110 gvright *)
  Definition gvright (A : view) (c s : T) (c1 c2 row nrow : Z) : M T unit :=
    let y0 := elems A + (c1 * step A + row) in
    let y1 := elems A + (c2 * step A + row) in
    for_up 0 nrow 1 (fun k =>
      a <- rd (y0 + k) ;;
      b <- rd (y1 + k) ;;
      wr (y1 + k) (c *' b -' s *' a) ;;
      wr (y0 + k) (c *' a +' s *' b)).

  (* src/lapack/givens.c:131-150 armas_gvleft *)
  Definition armas_gvleft (A : view) (c s : T) (r1 r2 col ncol : Z) : M T unit :=
    if cols A <=? col then ret tt
    else
      let lastc := Z.min (col + ncol) (cols A) in
      if r1 =? r2 then
        for_up col lastc 1 (fun k =>
          v0 <- armas_get (zero K) A r1 k ;;
          armas_set A r1 k (c *' v0))
      else gvleft A c s r1 r2 col ncol.

  (* src/lapack/givens.c:171-190 armas_gvright *)
  Definition armas_gvright (A : view) (c s : T) (c1 c2 row nrow : Z) : M T unit :=
    if rows A <=? row then ret tt
    else
      let lastr := Z.min (rows A) (row + nrow) in
      if c1 =? c2 then
        for_up row lastr 1 (fun k =>
          v0 <- armas_get (zero K) A k c1 ;;
          armas_set A k c1 (c *' v0))
      else gvright A c s c1 c2 row nrow.

  (* the test of src/lapack/givens.c:241, 249, 260, 268:  c != 1.0 || s != 0.0 *)
  Definition not_unit (c s : T) : bool := negb (eqb K c (one K)) || negb (eqb K s (zero K)).

  (* src/lapack/givens.c:228-274 armas_gvupdate.  The loops count two indexes; they run
     max(0, min(nrot, end - start)) rounds *)
  Definition armas_gvupdate (A : view) (start : Z) (C S : view) (nrot flags : Z) : M T Z :=
    let e := start + nrot in
    if has flags ARMAS_BACKWARD then
      if has flags ARMAS_LEFT then
        let e := Z.min (rows A) e in
        let cnt := Z.max 0 (Z.min nrot (e - start)) in
        for_up 0 cnt 1 (fun i =>
          let k := e - i in
          let n := nrot - i in
          c <- armas_get_at_unsafe C (n - 1) ;;
          s <- armas_get_at_unsafe S (n - 1) ;;
          when (not_unit c s) (gvleft A c s (k - 1) k 0 (cols A))) ;;
        ret (nrot - cnt)
      else
        let e := Z.min (cols A) e in
        let cnt := Z.max 0 (Z.min nrot (e - start)) in
        for_up 0 cnt 1 (fun i =>
          let k := e - i in
          let n := nrot - i in
          c <- armas_get_at_unsafe C (n - 1) ;;
          s <- armas_get_at_unsafe S (n - 1) ;;
          when (not_unit c s) (gvright A c s (k - 1) k 0 (rows A))) ;;
        ret (nrot - cnt)
    else
      if has flags ARMAS_LEFT then
        let e := Z.min (rows A) e in
        let cnt := Z.max 0 (Z.min nrot (e - start)) in
        for_up 0 cnt 1 (fun n =>
          let k := start + n in
          c <- armas_get_at_unsafe C n ;;
          s <- armas_get_at_unsafe S n ;;
          when (not_unit c s) (gvleft A c s k (k + 1) 0 (cols A))) ;;
        ret cnt
      else
        let e := Z.min (cols A) e in
        let cnt := Z.max 0 (Z.min nrot (e - start)) in
        for_up 0 cnt 1 (fun n =>
          let k := start + n in
          c <- armas_get_at_unsafe C n ;;
          s <- armas_get_at_unsafe S n ;;
          when (not_unit c s) (gvright A c s k (k + 1) 0 (rows A))) ;;
        ret cnt.

  (* src/lapack/givens.c:288-301 armas_gvrot_vec *)
  Definition armas_gvrot_vec (X Y : view) (c s : T) : M T Z :=
    for_up 0 (armas_size X) 1 (fun k =>
      x <- armas_get_at_unsafe X k ;;
      y <- armas_get_at_unsafe Y k ;;
      armas_set_at_unsafe X k (fst (armas_gvrotate c s x y)) ;;
      armas_set_at_unsafe Y k (snd (armas_gvrotate c s x y))) ;;
    ret 0.
End Givens.
