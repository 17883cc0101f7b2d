(** Properties C86 and C87: lattice functions. [basis_of n r g P] says that the r columns of [g] form a
    basis of the lattice of integer vectors of size n satisfying [P]. *)

From Coq Require Import List Arith ZArith Lia Bool.
From Verif Require Import VecModel RunModel RunProofs MatModel MatSpec MatProofs MatProps MatDet RedSpec MatLin RedModel RedProps LatModel LatSpec LatProofs.
Import ListNotations.
Open Scope nat_scope.

(** * C86: kernels, eigenspaces, orthogonal lattices, saturation *)
Theorem C86_kernel fits as_int : (forall z, as_int z = z) -> forall M m n f, is_mx M m n f ->
  gives (kernel fits as_int M) (fun K => exists k g, is_mx K n k g /\ basis_of n k g (annihilated m n f)) (overflows fits).
Proof. exact (kernel_ok fits as_int). Qed.
Print Assumptions C86_kernel.
Theorem C86_eigen_lattice fits as_int : (forall z, as_int z = z) -> forall M n f lambda, is_mx M n n f ->
  gives (eigen_lattice fits as_int M lambda)
    (fun K => exists k g, is_mx K n k g /\ basis_of n k g (fun x => forall i, i < n -> fapply n f x i = (lambda * x i)%Z)) (overflows fits).
Proof. exact (eigen_lattice_ok fits as_int). Qed.
Print Assumptions C86_eigen_lattice.
Theorem C86_perp fits b m n f : is_mx b m n f ->
  gives (perp fits b) (fun vs => exists v, length vs <= m /\
     (forall j, j < length vs -> exists l, get vs j = Some l /\ is_vec l m (fun i => v i j)) /\
     basis_of m (length vs) v (orthogonal m n f)) (overflows fits).
Proof. exact (perp_ok fits b m n f). Qed.
Print Assumptions C86_perp.
Theorem C86_row_saturate fits as_int : (forall z, as_int z = z) -> forall M m n f, is_mx M m n f ->
  gives (row_saturate fits as_int M) (fun S => exists r g, is_mx S r n g /\
     basis_of n r (fun i j => g j i) (in_saturation m n f) /\
     forall x, annihilated m n f x <-> annihilated r n g x) (overflows fits).
Proof. exact (row_saturate_ok fits as_int). Qed.
Print Assumptions C86_row_saturate.
Example C86_ex : is_mx (mx 3 [[2; 4; 6]; [1; 2; 3]]%Z) 2 3 (ent [[2; 4; 6]; [1; 2; 3]]%Z) /\
  kernel int32 idZ (mx 3 [[2; 4; 6]; [1; 2; 3]]%Z) = Ok (mx 2 [[-3; -2]; [0; 1]; [1; 0]]%Z) /\
  eigen_lattice int32 idZ (mx 2 [[0; 1]; [1; 0]]%Z) (-1) = Ok (mx 1 [[-1]; [1]]%Z) /\
  perp int32 (mx 1 [[2]; [4]; [6]]%Z) = Ok [[-2; 1; 0]; [-3; 0; 1]]%Z /\
  row_saturate int32 idZ (mx 3 [[2; 4; 6]; [3; 6; 9]]%Z) = Ok (mx 3 [[1; 2; 3]]%Z).
Proof. split; [apply (is_mx_mx 3); reflexivity|]. vm_compute. auto. Qed.

(** * C87: change of basis *)
Theorem C87_baseChange fits as_int : (forall z, as_int z = z) -> forall b n B vs, length b = n ->
  (forall j, j < n -> exists l, get b j = Some l /\ is_vec l n (fun i => B i j)) -> (forall v, In v vs -> length v = n) ->
  gives (baseChange fits as_int vs b)
    (Forall2 (fun v w => length w = n /\ forall i, i < n -> fapply n B (fun k => nth k w 0%Z) i = nth i v 0%Z) vs)
    (fun e => e = Thrown /\ (det n B = 0%Z \/ (exists d, least_denominator n B d /\ (2147483648 <= d)%Z) \/
        exists v, In v vs /\ ~ solvable n n B (fun i => nth i v 0%Z)) \/ overflows fits e).
Proof. exact (baseChange_ok fits as_int). Qed.
Print Assumptions C87_baseChange.
Theorem C87_inverseBaseChange fits b n B vs : length b = n ->
  (forall j, j < n -> exists l, get b j = Some l /\ is_vec l n (fun i => B i j)) -> (forall v, In v vs -> length v = n) ->
  gives (inverseBaseChange fits vs b)
    (Forall2 (fun v w => is_vec w n (fapply n B (fun k => nth k v 0%Z))) vs) (overflows fits).
Proof. exact (inverseBaseChange_ok fits b n B vs). Qed.
Print Assumptions C87_inverseBaseChange.
Example C87_ex : baseChange int32 idZ [[2; -1]; [1; 4]]%Z [[2; -1]; [-1; 2]]%Z = Ok [[1; 0]; [2; 3]]%Z /\
  inverseBaseChange int32 [[1; 0]; [2; 3]]%Z [[2; -1]; [-1; 2]]%Z = Ok [[2; -1]; [1; 4]]%Z /\
  baseChange int32 idZ [[1; 0]]%Z [[2; -1]; [-1; 2]]%Z = Fail Thrown.
Proof. vm_compute. auto. Qed.
