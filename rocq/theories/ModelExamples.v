(** The helpers shared by the example programs: examples/utils/multi_gpu.py, optimizers.py,
    dataset.py, utils.py, and the batching code around them. Numbers are reals. An exception
    is [None]. *)
From Coq Require Import List Reals Arith Bool.
From Verif Require Import SpecDist.
Import ListNotations.
Local Open Scope R_scope.

(** A Python slice l[a:b] with 0 <= a, 0 <= b. *)
Definition slice {A} (a b : nat) (l : list A) : list A := firstn (b - a) (skipn a l).

(** ** multi_gpu.py *)
(** zip of all lists, six.moves: as many tuples as the shortest list has entries. *)
Fixpoint zip_cons {A} (l : list A) (cols : list (list A)) : list (list A) :=
  match l, cols with
  | x :: l', c :: cols' => (x :: c) :: zip_cons l' cols'
  | _, _ => []
  end.
Fixpoint zip_star {A} (ls : list (list A)) : list (list A) :=
  match ls with
  | [] => []
  | l :: ls' => match ls' with [] => map (fun x => [x]) l | _ => zip_cons l (zip_star ls') end
  end.
(** The shard of tower [id], examples/generative_adversarial_nets/dcgan.py:80-81 and
    wasserstein_gan.py:85-86. *)
Definition tower_slice {A} (num_gpus : nat) (x : list A) (id : nat) : list A :=
  slice (id * length x / num_gpus) ((id + 1) * length x / num_gpus) x.
(** A gradient is the list of its entries. tf.expand_dims, tf.concat and tf.reduce_mean of
    multi_gpu.py:42-51: the shapes must agree. *)
Definition tensor := list R.
Definition stack_mean (grads : list tensor) : option tensor :=
  match grads with
  | [] => None
  | g :: _ =>
      if forallb (fun h => Nat.eqb (length h) (length g)) grads
      then Some (map (fun i => total (fun h => nth i h 0) grads / INR (length grads)) (seq 0 (length g)))
      else None
  end.
(** The gradients of one variable; tf.expand_dims of None raises ValueError. *)
Fixpoint all_present {A} (l : list (option A)) : option (list A) :=
  match l with
  | [] => Some []
  | None :: _ => None
  | Some a :: l' => match all_present l' with Some r => Some (a :: r) | None => None end
  end.
Section Towers.
Context {V : Type}.
(** The body of the loop, multi_gpu.py:37-59. *)
Definition average_one (grad_and_vars : list (option tensor * V)) : option (list (tensor * V)) :=
  match grad_and_vars with
  | [] => None
  | (None, _) :: _ => Some []
  | (Some _, v) :: _ =>
      match all_present (map fst grad_and_vars) with
      | None => None
      | Some grads => match stack_mean grads with Some grad => Some [(grad, v)] | None => None end
      end
  end.
Fixpoint average_all (cols : list (list (option tensor * V))) : option (list (tensor * V)) :=
  match cols with
  | [] => Some []
  | c :: cols' =>
      match average_one c with
      | None => None
      | Some r => match average_all cols' with Some rs => Some (r ++ rs) | None => None end
      end
  end.
(** average_gradients, multi_gpu.py:24-60. *)
Definition average_gradients (tower_grads : list (list (option tensor * V))) : option (list (tensor * V)) :=
  average_all (zip_star tower_grads).
End Towers.
(** average_losses, multi_gpu.py:63-75, for scalars. *)
Definition average_losses (tower_losses : list (list R)) : list R :=
  map (fun quantities => total (fun q => q) quantities / INR (length quantities)) (zip_star tower_losses).

(** ** optimizers.py *)
(** One entry of a variable with its two slots; _create_slots, optimizers.py:35-39, starts
    them at zero. *)
Record adamax := Adamax { a_var : R; a_m : R; a_v : R }.
(** _apply_dense, optimizers.py:41-58. [eps] is 1e-8, or 1e-7 for half precision. *)
Definition apply_dense (lr beta1 beta2 eps : R) (s : adamax) (grad : R) : adamax :=
  let v_t := beta1 * a_v s + (1 - beta1) * grad in
  let m_t := Rmax (beta2 * a_m s + eps) (Rabs grad) in
  let g_t := v_t / m_t in
  Adamax (a_var s - lr * g_t) m_t v_t.
Definition optimize (lr beta1 beta2 eps x0 : R) (grads : list R) : adamax :=
  fold_left (apply_dense lr beta1 beta2 eps) grads (Adamax x0 0 0).

(** ** utils.py *)
(** average_rmse_over_batches, utils.py:60-70. *)
Definition average_rmse_over_batches (rmses : list R) (sizes : list nat) : R :=
  sqrt (total (fun p => fst p ^ 2 * INR (snd p)) (combine rmses sizes) / INR (list_sum sizes)).
(** The big image of save_image_collections, utils.py:45-56, for images of [h] rows and [w]
    columns in an [r] by [c] grid; one channel; [n] images. An image is a function of the row
    and the column. Intensity scaling, the conversion to bytes and the file are left out. *)
Section Images.
Context {P : Type} (zero : P) (h w r c n : nat) (x : nat -> nat -> nat -> P).
Definition image := nat -> nat -> P.
(** ret[i * h:(i + 1) * h, j * w:(j + 1) * w] = picture *)
Definition paste (i j : nat) (picture : image) (ret : image) : image := fun y z =>
  if andb (andb (Nat.leb (i * h) y) (Nat.ltb y ((i + 1) * h))) (andb (Nat.leb (j * w) z) (Nat.ltb z ((j + 1) * w)))
  then picture (y - i * h)%nat (z - j * w)%nat else ret y z.
Definition tile_row (i : nat) (ret : image) : image :=
  fold_left (fun ret j => if Nat.ltb (i * c + j) n then paste i j (x (i * c + j)%nat) ret else ret) (seq 0 c) ret.
Definition tile : image := fold_left (fun ret i => tile_row i ret) (seq 0 r) (fun _ _ => zero).
End Images.

(** ** dataset.py *)
(** standardize, dataset.py:20-36. A row is a function of the column. *)
Notation row := (nat -> R).
Definition column_mean (data : list row) (j : nat) : R := total (fun x => x j) data / INR (length data).
Definition column_std (data : list row) (j : nat) : R :=
  sqrt (total (fun x => (x j - column_mean data j) ^ 2) data / INR (length data)).
Definition used_std (data : list row) (j : nat) : R :=
  if Req_EM_T (column_std data j) 0 then 1 else column_std data j.
Definition standardize (data_train data_test : list row) : list row * list row * row * row :=
  let f := fun (x : row) (j : nat) => (x j - column_mean data_train j) / used_std data_train j in
  (map f data_train, map f data_test, column_mean data_train, used_std data_train).
(** to_one_hot, dataset.py:39-50. Negative indices count from the end; indices outside
    -depth..depth-1 raise IndexError. *)
Definition index_of (depth : nat) (k : BinInt.Z) : option nat :=
  if andb (BinInt.Z.leb 0 k) (BinInt.Z.ltb k (BinInt.Z.of_nat depth)) then Some (BinInt.Z.to_nat k)
  else if andb (BinInt.Z.leb (BinInt.Z.opp (BinInt.Z.of_nat depth)) k) (BinInt.Z.ltb k 0) then Some (BinInt.Z.to_nat (BinInt.Z.add (BinInt.Z.of_nat depth) k))
  else None.
Definition to_one_hot (x : list BinInt.Z) (depth : nat) : option (list (list R)) :=
  match all_present (map (index_of depth) x) with
  | Some ks => Some (map (fun k => map (fun j => if Nat.eqb j k then 1 else 0) (seq 0 depth)) ks)
  | None => None
  end.
(** load_mnist_semi_supervised, dataset.py:171-195 (with [k] = 10), and
    load_cifar10_semi_supervised, dataset.py:276-298 ([k] = 400), for [classes] = 10. The
    training set is a list of pairs of a point and its label. [shuffle i] is what rng.shuffle
    does to class [i], [shuffle_all] the final np.random.shuffle. *)
Section SemiSupervised.
Context {A : Type} (classes k : nat) (shuffle : nat -> list (A * nat) -> list (A * nat)) (shuffle_all : list A -> list A).
Definition by_class (train : list (A * nat)) (i : nat) : list (A * nat) := filter (fun p => Nat.eqb (snd p) i) train.
Definition labeled (train : list (A * nat)) : list (A * nat) :=
  flat_map (fun i => firstn k (shuffle i (by_class train i))) (seq 0 classes).
Definition unlabeled (train : list (A * nat)) : list A := shuffle_all (map fst train).
End SemiSupervised.
(** load_uci_boston_housing, dataset.py:332-344, and load_uci_protein_data, 358-370: the rows
    at the chosen indices. np.round rounds 0.8 n to the nearest integer; 0.9 n can be half way,
    and then [up] says which way. *)
Definition size_train (n : nat) : nat := (8 * n + 5) / 10.
Definition size_test (up : bool) (n : nat) : nat := if up then (9 * n + 5) / 10 else (9 * n + 4) / 10.
Section Split.
Context {A : Type} (d : A).
Definition rows_at (data : list A) (indices : list nat) : list A := map (fun i => nth i data d) indices.
(** train, validation, test *)
Definition uci_split (up : bool) (permutation : list nat) (data : list A) : list A * list A * list A :=
  let n := length data in
  (rows_at data (slice 0 (size_train n) permutation),
   rows_at data (skipn (size_test up n) permutation),
   rows_at data (slice (size_train n) (size_test up n) permutation)).
(** load_uci_german_credits, dataset.py:313-316. *)
Definition credits_split (n_train : nat) (data : list A) : list A * list A := (firstn n_train data, skipn n_train data).
(** load_movielens1m, dataset.py:499-506, after the two shuffles. *)
Definition movielens_split (corpus : list A) : list A * list A * list A :=
  let n := length corpus in
  let ndv := (n / 20 * 17)%nat in
  let ndv2 := (n / 10 * 9)%nat in
  (slice 0 ndv corpus, slice ndv ndv2 corpus, skipn ndv2 corpus).
End Split.
(** l[i].append(a); an index past the end raises IndexError. *)
Fixpoint append_at {A} (l : list (list A)) (i : nat) (a : A) : option (list (list A)) :=
  match l, i with
  | [], _ => None
  | x :: l', O => Some ((x ++ [a]) :: l')
  | x :: l', S i' => match append_at l' i' a with Some r => Some (x :: r) | None => None end
  end.
Fixpoint append_each {A B} (key : B -> nat) (f : B -> A) (data : list B) (acc : list (list A)) : option (list (list A)) :=
  match data with
  | [] => Some acc
  | b :: data' => match append_at acc (key b) (f b) with Some acc' => append_each key f data' acc' | None => None end
  end.
(** load_movielens1m, dataset.py:481-495 (a rating is user, movie, score; identifiers already
    reduced by one), and load_movielens1m_mapped, 528-552. The four lists are filled in one loop;
    they do not depend on one another, so each is built by a loop of its own. *)
Definition rating := (nat * nat * nat)%type.
Definition r_user (t : rating) : nat := fst (fst t).
Definition r_movie (t : rating) : nat := snd (fst t).
Definition r_score (t : rating) : nat := snd t.
Definition num_of (key : rating -> nat) (corpus : list rating) : nat := fold_left (fun m t => Nat.max m (key t + 1)) corpus 0%nat.
Definition grouped {A} (key : rating -> nat) (f : rating -> A) (num : nat) (train : list rating) : option (list (list A)) :=
  append_each key f train (repeat [] num).
(** find_non_trained, dataset.py:508-523: the printed numbers of users and movies without
    training data. *)
Definition untrained (key : rating -> nat) (num : nat) (train : list rating) : nat :=
  num - length (filter (fun i => existsb (fun t => Nat.eqb (key t) i) train) (seq 0 num)).
(** load_uci_bow, dataset.py:398-408: entries are (document, word, count) with document and
    word from 1; the array as a function. *)
Definition bow_entry := (nat * nat * nat)%type.
Definition bow_dense (entries : list bow_entry) : nat -> nat -> nat :=
  fold_left (fun data e => fun d v => if andb (Nat.eqb d (fst (fst e) - 1)) (Nat.eqb v (snd (fst e) - 1)) then (data d v + snd e)%nat else data d v) entries (fun _ _ => 0%nat).
(** load_uci_bow_sparse, dataset.py:446-454, for [D] documents. *)
Definition bow_sparse (D : nat) (entries : list bow_entry) : option (list (list (nat * nat))) :=
  append_each (fun e => (fst (fst e) - 1)%nat) (fun e => ((snd (fst e) - 1)%nat, snd e)) entries (repeat [] D).

(** ** Batches *)
(** t-th batch, e.g. examples/variational_autoencoders/vae.py:99 and
    probabilistic_matrix_factorization/pmf_hmc.py:219-221. *)
Definition batch {A} (size : nat) (data : list A) (t : nat) : list A := slice (t * size) ((t + 1) * size) data.
(** iters = N // batch_size: vae.py:83, iwae.py:84 and most other examples. *)
Definition full_batches {A} (size : nat) (data : list A) : list (list A) := map (batch size data) (seq 0 (length data / size)).
(** n_iters = (N + batch_size - 1) // batch_size: pmf_hmc.py:217; bnn_vi.py:110 and
    bnn_sgmcmc.py:110 write (N - 1) // batch_size + 1, gaussian_process/svgp.py:168 the
    ceiling. *)
Definition all_batches {A} (size : nat) (data : list A) : list (list A) := map (batch size data) (seq 0 ((length data + size - 1) / size)).
(** Padding of examples/topic_models/lntm_mcem.py:76-78. *)
Definition padded {A} (zero : A) (size : nat) (data : list A) : list A :=
  let rem := (size - length data mod size)%nat in
  if Nat.ltb rem size then data ++ repeat zero rem else data.

(** ** select_from_corpus, pmf_hmc.py:34-60 *)
(** [u_v] lists for every user the movies, [u_v_score] the scores. Users outside the lists are
    skipped: indexing raises IndexError, which is caught; the statements before it in the same
    try block raise it first, so nothing is added. list(set(sv)) lists the distinct entries in
    some order, given by [distinct]. *)
Definition entry_at {A} (l : list (list A)) (i : nat) : list A := match nth_error l i with Some x => x | None => [] end.
Fixpoint position (l : list nat) (v : nat) : nat :=
  match l with
  | [] => 0%nat
  | x :: l' => if Nat.eqb x v then 0%nat else S (position l' v)
  end.
Definition select_from_corpus (distinct : list nat -> list nat) (l r : nat) (u_v u_v_score : list (list nat)) :
    nat * list nat * list nat * list nat * list nat :=
  let rows := seq 0 (r - l) in
  let all := flat_map (fun i => entry_at u_v (l + i)) rows in
  let tr := flat_map (fun i => entry_at u_v_score (l + i)) rows in
  let sv := distinct all in
  let ssu := flat_map (fun i => repeat i (length (entry_at u_v (l + i)))) rows in
  let ssv := map (position sv) all in
  (length sv, sv, tr, ssu, ssv).
