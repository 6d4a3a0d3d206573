(** The files that the loaders of examples/utils/dataset.py leave behind. A run can be stopped
    at any point: the process is killed, the network fails, the disk is full. Directories and
    the progress bar (dataset.py:56-94) are left out. *)
From Coq Require Import List Arith.
Import ListNotations.

Definition bytes := list nat.
(** The file passed as path; data_path with .vector, .vocab and .npy, dataset.py:389-392; the
    files in cifar-10-batches-py, dataset.py:217-218: test_batch is member 0, data_batch_i
    member i, others have larger numbers. *)
Inductive path := Archive | Vector | Vocab | Numpy | Member (i : nat).
Definition path_eq (p q : path) : {p = q} + {p <> q}.
Proof. decide equality. apply Nat.eq_dec. Defined.
Definition files := path -> option bytes.
Definition put (s : files) (p : path) (c : option bytes) : files := fun q => if path_eq q p then c else s q.

(** What a loader does, one system call after the other. *)
Inductive prog (A : Type) :=
| Return (a : A)
| Raise
| IsFile (p : path) (k : bool -> prog A)
| Write (p : path) (b : bytes) (k : prog A)
| Remove (p : path) (k : prog A)
| Read (p : path) (k : bytes -> prog A).
Arguments Return {A}. Arguments Raise {A}. Arguments IsFile {A}. Arguments Write {A}. Arguments Remove {A}. Arguments Read {A}.
Inductive outcome (A : Type) := Returned (a : A) | Raised | Stopped.
Arguments Returned {A}. Arguments Raised {A}. Arguments Stopped {A}.
(** The run is stopped after [n] steps unless it ends before. Writing creates an empty file,
    replacing an earlier one, and then adds the bytes one by one. *)
Fixpoint run {A} (n : nat) (s : files) (m : prog A) {struct m} : files * outcome A :=
  match m with
  | Return a => (s, Returned a)
  | Raise => (s, Raised)
  | IsFile p k =>
      match n with
      | O => (s, Stopped)
      | S n' => run n' s (k (match s p with Some _ => true | None => false end))
      end
  | Write p b k =>
      match n with
      | O => (s, Stopped)
      | S n' => if Nat.ltb n' (length b) then (put s p (Some (firstn n' b)), Stopped) else run (n' - length b) (put s p (Some b)) k
      end
  | Remove p k =>
      match n with
      | O => (s, Stopped)
      | S n' => match s p with Some _ => run n' (put s p None) k | None => (s, Raised) end
      end
  | Read p k =>
      match n with
      | O => (s, Stopped)
      | S n' => match s p with Some b => run n' s (k b) | None => (s, Raised) end
      end
  end.

Section Loaders.
(** [remote]: what download_dataset, dataset.py:97-99, writes. *)
Context {A B W F : Type}.
(** if not os.path.isfile(path): download_dataset(url, path) *)
Definition fetched {T} (remote : bytes) (p : path) (k : prog T) : prog T :=
  IsFile p (fun here => if here then k else Write p remote k).
(** load_mnist_realval, dataset.py:113-124; load_uci_german_credits, 302-311;
    load_uci_boston_housing, 322-330; load_uci_protein_data, 348-356; load_movielens1m, 473-481.
    [parse] is what the reading functions make of the file, None if they raise. *)
Definition load_file (remote : bytes) (parse : bytes -> option A) : prog A :=
  fetched remote Archive (Read Archive (fun b => match parse b with Some d => Return d | None => Raise end)).
(** np.loadtxt: one row per line (a byte 10 ends a line), the last line may lack the end;
    numbers are left as bytes. *)
Fixpoint text_rows (line : bytes) (b : bytes) : list bytes :=
  match b with
  | [] => match line with [] => [] | _ => [line] end
  | c :: b' => if Nat.eqb c 10 then line :: text_rows [] b' else text_rows (line ++ [c]) b'
  end.
(** load_cifar10, dataset.py:210-243. [unpack b] lists the files that tarfile extracts from an
    archive [b], in order, and whether it reaches the end without an error. *)
Fixpoint extract {T} (members : list (nat * bytes)) (k : prog T) : prog T :=
  match members with
  | [] => k
  | (i, b) :: members' => Write (Member i) b (extract members' k)
  end.
Fixpoint read_batches (parse : bytes -> option B) (l : list nat) (acc : list B) : prog (list B) :=
  match l with
  | [] => Return acc
  | i :: l' => Read (Member i) (fun b => match parse b with Some x => read_batches parse l' (acc ++ [x]) | None => Raise end)
  end.
Definition load_cifar10 (remote : bytes) (unpack : bytes -> list (nat * bytes) * bool) (parse : bytes -> option B) : prog (list B) :=
  let batches := read_batches parse [1; 2; 3; 4; 5; 0] [] in
  fetched remote Archive (IsFile (Member 5) (fun here =>
    if here then batches
    else Read Archive (fun b => extract (fst (unpack b)) (if snd (unpack b) then batches else Raise)))).
(** The end of load_uci_bow, dataset.py:412-419, and of load_uci_bow_sparse, 456-462. *)
Definition with_vocab {T} (vocab : bytes) (data : T) : prog (T * list bytes) :=
  fetched vocab Vocab (Read Vocab (fun b => Return (data, text_rows [] b))).
(** load_uci_bow, dataset.py:394-419: [dense] is the array made from the downloaded file,
    [save] np.save and [load] np.load. *)
Definition load_uci_bow (vector vocab : bytes) (dense : bytes -> option F) (save : F -> bytes) (load : bytes -> option F) : prog (F * list bytes) :=
  IsFile Numpy (fun here =>
    if here then Read Numpy (fun b => match load b with Some d => with_vocab vocab d | None => Raise end)
    else Write Vector vector (Read Vector (fun b =>
      match dense b with
      | Some d => Write Numpy (save d) (Remove Vector (with_vocab vocab d))
      | None => Raise
      end))).
(** load_uci_bow_sparse, dataset.py:442-462. *)
Definition load_uci_bow_sparse (vector vocab : bytes) (sparse : bytes -> option W) : prog (W * list bytes) :=
  fetched vector Vector (Read Vector (fun b => match sparse b with Some d => with_vocab vocab d | None => Raise end)).
End Loaders.
