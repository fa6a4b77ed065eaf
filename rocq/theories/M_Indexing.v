(** * The first index of a row or column in the CSR format

    /repo/src/math/primitives/matrix_info.cpp:6-11: Indexing::CSR, the same in both branches of HAVE_MKL.  The proofs do not depend on its value. *)
Definition Indexing_CSR : nat := 0.
