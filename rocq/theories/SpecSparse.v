(* SpecSparse.v: what a sparse matrix denotes, in terms of its fields only. *)
From Coq Require Import ZArith List Bool Lia Sorting.Permutation.
From Verif Require Import MNum SpecNum MSparse.
Import ListNotations.
Local Open Scope Z_scope.

(* lo, lo+1, ..., hi-1 *)
Definition zr (lo hi : Z) : list Z := map (fun k => lo + Z.of_nat k) (seq 0 (Z.to_nat (hi - lo))).

Section Spec.
  Context {T : Type}.

  (* the (index, value) pairs of line j of a compressed matrix: a column of a
     CSC matrix, a row of a CSR matrix *)
  Definition line_of (A : sparse T) (j : Z) : list (Z * T) :=
    map (fun p => (aget (sp_ix A) p, aget (sp_v A) p))
        (zr (aget (sp_ptr A) j) (aget (sp_ptr A) (j + 1))).

  (* the stored elements as (row, column, value) *)
  Definition entries (A : sparse T) : list (Z * Z * T) :=
    match sp_kind A with
    | COO => map (fun k => let e := aget (sp_ep A) k in (ci e, cj e, cv e)) (zr 0 (sp_nnz A))
    | CSC => flat_map (fun j => map (fun e => (fst e, j, snd e)) (line_of A j)) (zr 0 (sp_nptr A))
    | CSR => flat_map (fun i => map (fun e => (i, fst e, snd e)) (line_of A i)) (zr 0 (sp_nptr A))
    end.

  (* number of lines and length of a line *)
  Definition nlines (A : sparse T) : Z := match sp_kind A with CSR => sp_rows A | _ => sp_cols A end.
  Definition linelen (A : sparse T) : Z := match sp_kind A with CSR => sp_cols A | _ => sp_rows A end.

  (* the structure is consistent: all accesses the format implies are in bounds
     and every stored element lies inside the matrix *)
  Definition valid (A : sparse T) : Prop :=
    0 <= sp_rows A /\ 0 <= sp_cols A /\ 0 <= sp_nnz A <= sp_size A /\
    match sp_kind A with
    | COO => alen (sp_ep A) = sp_size A /\
             forall k, 0 <= k < sp_nnz A ->
               0 <= ci (aget (sp_ep A) k) < sp_rows A /\ 0 <= cj (aget (sp_ep A) k) < sp_cols A
    | _ => sp_nptr A = nlines A /\
           alen (sp_v A) = sp_size A /\ alen (sp_ix A) = sp_size A /\
           alen (sp_ptr A) = nlines A + 1 /\
           aget (sp_ptr A) 0 = 0 /\ aget (sp_ptr A) (nlines A) = sp_nnz A /\
           (forall j, 0 <= j < nlines A -> aget (sp_ptr A) j <= aget (sp_ptr A) (j + 1)) /\
           (forall p, 0 <= p < sp_nnz A -> 0 <= aget (sp_ix A) p < linelen A)
    end.

  (* within every line the indices ascend *)
  Definition ascending (A : sparse T) : Prop :=
    forall j p q, 0 <= j < nlines A -> aget (sp_ptr A) j <= p -> p < q -> q < aget (sp_ptr A) (j + 1) ->
      aget (sp_ix A) p <= aget (sp_ix A) q.
  Definition strictly_ascending (A : sparse T) : Prop :=
    forall j p q, 0 <= j < nlines A -> aget (sp_ptr A) j <= p -> p < q -> q < aget (sp_ptr A) (j + 1) ->
      aget (sp_ix A) p < aget (sp_ix A) q.

  (* no position is stored twice *)
  Definition no_duplicates (A : sparse T) : Prop := NoDup (map fst (entries A)).

  Definition at_pos (i j : Z) (e : Z * Z * T) : bool := (fst (fst e) =? i) && (snd (fst e) =? j).

  (* the element (i, j): the sum of the values stored for that position (zero
     when there is none, the stored value when there is one) *)
  Definition value (K : num T) (A : sparse T) (i j : Z) : T :=
    fold_right (fun e s => if at_pos i j e then add K (snd e) s else s) (zero K) (entries A).

  Definition swap_pos (e : Z * Z * T) : Z * Z * T := (snd (fst e), fst (fst e), snd e).
End Spec.
