(* Model of random_sparse_matrix of utils/random_utils.hpp. The engine is an arbitrary state G with the next value of an integer
   and of a real distribution. Arithmetic is exact: [fill] is a rational number and the products do not overflow. *)
From Coq Require Import QArith Qround.
From Verif Require Import Base.
Open Scope nat_scope.

(* static_cast<std::size_t> of a double truncates; the result for -1 and less is undefined *)
Definition to_size (x : Q) : outcome nat :=
  if Qle_bool x (- (1)) then UB else Ok (Z.to_nat (Qfloor x)).

Section Sparse.
Context {G V : Type}.
Variable uniform : Z -> Z -> G -> Z * G.            (* std::uniform_int_distribution *)
Variable uniform_real : V -> V -> G -> V * G.       (* std::uniform_real_distribution *)
Variable le : V -> V -> bool.

(* utils/random_utils.hpp:165-172: draws until the position is free, giving up (None) after fuel draws: the C++ loop has no
   bound *)
Fixpoint free_position (fuel : nat) (rows cols : Z) (nnz_pos : list Z) (g : G) : option (Z * Z * G) :=
  match fuel with
  | 0 => None
  | S fuel' =>
    let (r, g1) := uniform 0 (rows - 1) g in
    let (c, g2) := uniform 0 (cols - 1) g1 in
    let pos := (r * cols + c)%Z in
    if existsb (Z.eqb pos) nnz_pos then free_position fuel' rows cols nnz_pos g2
    else Some (r, c, g2)
  end.

(* utils/random_utils.hpp:164-176: n more elements *)
Fixpoint triplets (fuel n : nat) (rows cols : Z) (lo hi : V) (nnz_pos : list Z) (g : G) : option (list (Z * Z * V) * G) :=
  match n with
  | 0 => Some ([], g)
  | S n' =>
    match free_position fuel rows cols nnz_pos g with
    | None => None
    | Some (r, c, g1) =>
      let (v, g2) := uniform_real lo hi g1 in
      match triplets fuel n' rows cols lo hi ((r * cols + c)%Z :: nnz_pos) g2 with
      | None => None
      | Some (rest, g3) => Some ((r, c, v) :: rest, g3)
      end
    end
  end.

(* random_sparse_matrix, utils/random_utils.hpp:151-182, up to setFromTriplets; a distribution with an empty range is
   undefined. None: not returned within fuel draws per element *)
Definition random_sparse_matrix (fuel : nat) (rows cols : Z) (fill : Q) (min_element max_element : V) (g : G)
  : option (outcome (list (Z * Z * V) * G)) :=
  if negb (le min_element max_element) || (rows <? 1)%Z || (cols <? 1)%Z then Some UB
  else match to_size (inject_Z rows * (inject_Z cols * fill))%Q with
  | Ok nnz =>
    match triplets fuel nnz rows cols min_element max_element [] g with
    | Some r => Some (Ok r)
    | None => None
    end
  | Abort => Some Abort | Throw => Some Throw | UB => Some UB
  end.

(* Eigen::SparseMatrix::setFromTriplets, utils/random_utils.hpp:178-181: the values of duplicates are added, so that an entry is
   the sum of the values given for it *)
Variable zero : V.
Variable plus : V -> V -> V.
Definition entry (ts : list (Z * Z * V)) (i j : Z) : V :=
  fold_left plus (map snd (filter (fun t => Z.eqb (fst (fst t)) i && Z.eqb (snd (fst t)) j) ts)) zero.
End Sparse.
