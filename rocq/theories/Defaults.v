(** * src/reproBLAS: the functions without a fold argument *)
From Coq Require Import ZArith Bool List Lia Ascii.
From Verif Require Import Fp Mem Binned Blas BlasZ Ssq BlasDZ Gemv GemvZ.
Open Scope Z_scope.

(** config.h:15 DIDEFAULTFOLD, config.h:23 SIDEFAULTFOLD *)
Definition default_fold (t : ty) : Z := match t with Dbl => 3 | Flt => 3 end.
(** dsum.c, ssum.c; as in rdsum, [acc] is the address of the temporary accumulator. *)
Definition dsum {t} (tu : tuning) (N X incX acc : Z) (m : mem t) : F t := rdsum tu (default_fold t) N X incX acc m.
(** dasum.c, sasum.c *)
Definition dasum {t} (tu : tuning) (N X incX acc : Z) (m : mem t) : F t := rdasum tu (default_fold t) N X incX acc m.
(** ddot.c, sdot.c *)
Definition ddot {t} (tu : tuning) (N X incX Y incY acc : Z) (m : mem t) : F t := rddot tu (default_fold t) N X incX Y incY acc m.
(** dnrm2.c, snrm2.c *)
Definition dnrm2 {t} (tu : tuning) (N X incX acc : Z) (m : mem t) : F t := rdnrm2 tu (default_fold t) N X incX acc m.
(** zsum_sub.c, csum_sub.c *)
Definition zsum {t} (tu : tuning) (N X incX acc : Z) (m : mem t) : F t * F t := rzsum tu (default_fold t) N X incX acc m.
(** zdotc_sub.c, cdotc_sub.c *)
Definition zdotc {t} (tu : tuning) (N X incX Y incY acc : Z) (m : mem t) : F t * F t := rzdotc tu (default_fold t) N X incX Y incY acc m.
(** zdotu_sub.c, cdotu_sub.c *)
Definition zdotu {t} (tu : tuning) (N X incX Y incY acc : Z) (m : mem t) : F t * F t := rzdotu tu (default_fold t) N X incX Y incY acc m.
(** dzasum.c, scasum.c *)
Definition dzasum {t} (tu : tuning) (N X incX acc tmp : Z) (m : mem t) : F t := rdzasum tu (default_fold t) N X incX acc tmp m.
(** dznrm2.c, scnrm2.c *)
Definition dznrm2 {t} (tu : tuning) (N X incX acc tmp tmp' : Z) (m : mem t) : F t := rdznrm2 tu (default_fold t) N X incX acc tmp tmp' m.
(** dgemv.c, sgemv.c *)
Definition dgemv {t} (tu : tuning) (b : gemv_blocks) (Order TransA : ascii) (M N : Z) (alpha : F t)
    (A lda X incX : Z) (beta : F t) (Y incY YI bufX bufA : Z) (m : mem t) : mem t :=
  rdgemv tu b (default_fold t) Order TransA M N alpha A lda X incX beta Y incY YI bufX bufA m.
(** dgemm.c, sgemm.c *)
Definition dgemm {t} (tu : tuning) (b : gemm_blocks) (Order TransA TransB : ascii) (M N K : Z) (alpha : F t)
    (A lda B ldb : Z) (beta : F t) (C ldc CI bufA bufB : Z) (m : mem t) : mem t :=
  rdgemm tu b (default_fold t) Order TransA TransB M N K alpha A lda B ldb beta C ldc CI bufA bufB m.
(** zgemv.c, cgemv.c *)
Definition zgemv {t} (tu : tuning) (b : gemv_blocks) (Order TransA : ascii) (M N : Z) (alpha : F t * F t)
    (A lda X incX : Z) (beta : F t * F t) (Y incY YI bufX bufA : Z) (m : mem t) : mem t :=
  rzgemv tu b (default_fold t) Order TransA M N alpha A lda X incX beta Y incY YI bufX bufA m.
(** zgemm.c, cgemm.c *)
Definition zgemm {t} (tu : tuning) (b : gemm_blocks) (Order TransA TransB : ascii) (M N K : Z) (alpha : F t * F t)
    (A lda B ldb : Z) (beta : F t * F t) (C ldc CI bufA bufB : Z) (m : mem t) : mem t :=
  rzgemm tu b (default_fold t) Order TransA TransB M N K alpha A lda B ldb beta C ldc CI bufA bufB m.
