(** Layout and triangle utilities of util.hh. *)
From Verif Require Import Base Spec DenseModel SpmmModel.

(** Arithmetic used by the symmetry check: subtraction, abs, operator<.  The unqualified
    [abs] of util.hh 136-137 is taken to be the overload for the scalar type. *)
Record cmp_ops (T : Type) := { o_sub : T -> T -> T; o_abs : T -> T; o_ltb : T -> T -> bool }.
Arguments o_sub {T} _. Arguments o_abs {T} _. Arguments o_ltb {T} _.

Inductive uplo := Upper | Lower | General.

Section Util.
  Context {T : Type}.
  Variable zero : T.

  (** util.hh 81-111: flip_layout.  [A] is a std::vector, so it is resized; the elements
      appended by resize are value-initialised.  Forming an iterator before the start of
      the vector is undefined. *)
  Definition flip_layout (l : layout) (m n : Z) (A : list T) (lda_in lda_out : Z) : outcome (list T) :=
    let l_out := match l with ColMajor => RowMajor | RowMajor => ColMajor end in
    len <- match l with
           | ColMajor => req (lda_in >=? m) ;; req (lda_out >=? n) ;; Ok (lda_out * m)
           | RowMajor => req (lda_in >=? n) ;; req (lda_out >=? m) ;; Ok (lda_out * n)
           end ;;
    let '(irs_in, ics_in) := DenseModel.layout_to_strides l lda_in in
    let '(irs_out, ics_out) := DenseModel.layout_to_strides l_out lda_out in
    let A := if len >=? zlen A then A ++ repeat zero (Z.to_nat (len - zlen A)) else A in
    A_out <- omatcopy m n A irs_in ics_in A irs_out ics_out ;;
    if len <? 0 then UB else Ok (firstn (Z.to_nat len) A_out).

  (** util.hh 307-327: symmetrize. *)
  Definition symmetrize (l : layout) (u : uplo) (n : Z) (A : list T) (lda : Z) : outcome (list T) :=
    let '(irs, ics) := DenseModel.layout_to_strides l lda in
    match u with
    | Upper =>
        for_ 0 n (fun i A => for_ (i + 1) n (fun j A =>
          x <- rd A (i * irs + j * ics) ;; wr A (j * irs + i * ics) x) A) A
    | Lower =>
        for_ 0 n (fun i A => for_ (i + 1) n (fun j A =>
          x <- rd A (j * irs + i * ics) ;; wr A (i * irs + j * ics) x) A) A
    | General => Ok A
    end.

  (** util.hh 352-372: overwrite_triangle. *)
  Definition overwrite_triangle (l : layout) (u : uplo) (n k : Z) (A : list T) (lda : Z) : outcome (list T) :=
    let '(irs, ics) := DenseModel.layout_to_strides l lda in
    match u with
    | Upper => for_ 0 n (fun i A => for_ (i + k) n (fun j A => wr A (i * irs + j * ics) zero) A) A
    | Lower => for_ 0 n (fun i A => for_ (i + k) n (fun j A => wr A (j * irs + i * ics) zero) A) A
    | General => Throw
    end.

  (** util.hh 383-392: transpose_square. *)
  Definition transpose_square (A : list T) (n lda : Z) : outcome (list T) :=
    for_ 0 n (fun i A => for_ (i + 1) n (fun j A =>
      x <- rd A (i + lda * j) ;; y <- rd A (j + lda * i) ;;
      A <- wr A (i + lda * j) y ;; wr A (j + lda * i) x) A) A.
End Util.

(** util.hh 126-147: require_symmetric.  The error is raised at the first violating pair. *)
Definition require_symmetric {T} (O : ops T) (Q : cmp_ops T) (l : layout) (A : list T) (n lda : Z) (tol : T) : outcome unit :=
  if o_ltb Q tol (o_zero O) then Ok tt else
  let '(irs, ics) := DenseModel.layout_to_strides l lda in
  for_ 0 n (fun i _ => for_ (i + 1) n (fun j _ =>
    Aij <- rd A (i * irs + j * ics) ;;
    Aji <- rd A (j * irs + i * ics) ;;
    let viol := o_abs Q (o_sub Q Aij Aji) in
    let rel_tol := o_mul O (o_add O (o_add O (o_abs Q Aij) (o_abs Q Aji)) (o_one O)) tol in
    if o_ltb Q rel_tol viol then Throw else Ok tt) tt) tt.
