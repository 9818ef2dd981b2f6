From Coq Require Import List NArith ZArith String Ascii Bool.
From Verif Require Import Model.Outcome.
Import ListNotations.
Local Open Scope N_scope.

(** Binary serialisation (common/io.hpp, rbf/rbf_io.hpp and the Read/Write specialisations next to
    each class). A file is a list of bytes (numbers below 256). Scalars are stored in the host byte
    order, taken to be little endian. A double is modelled by its raw 64-bit pattern, so that NaN
    payloads and signed zeros count as different values. *)

(** The [k] low-order bytes of [x], low byte first, and back. *)
Fixpoint le (k : nat) (x : N) : list N :=
  match k with
  | O => []
  | S k' => x mod 256 :: le k' (x / 256)
  end.

(** Helper without code of its own. *)
Definition unle (bs : list N) : N := fold_right (fun b acc => b + 256 * acc) 0 bs.

(** An input stream: the bytes not yet extracted, and whether failbit is set. *)
Record stream := mk_stream { rest : list N; failed : bool }.

(** std::istream::read of [n] bytes over memory that holds [old]: extracts nothing once the stream
    has failed, extracts what is there and sets failbit at the end of the file. *)
Definition sread (n : nat) (old : list N) (s : stream) : list N * stream :=
  if failed s then (old, s)
  else
    let got := firstn n (rest s) in
    (got ++ skipn (List.length got) old,
     mk_stream (skipn n (rest s)) (Nat.ltb (List.length got) n)).

(** A reader takes the previous contents of the object and the stream. *)
Definition reader (A : Type) := A -> stream -> outcome (A * stream).

(** Read/Write of a trivially copyable object of [k] bytes (io.hpp:31-45). *)
Definition write_scalar (k : nat) (x : N) : list N := le k x.
(** Within io.hpp:31-45. *)
Definition read_scalar (k : nat) : reader N := fun old s =>
  let (bs, s') := sread k (le k old) s in Ok (unle bs, s').

(** Signed scalars (int, Index) in two's complement. *)
Definition wrap (k : nat) (z : Z) : N := Z.to_N (z mod 256 ^ Z.of_nat k).
(** Helper without code of its own. *)
Definition unwrap (k : nat) (x : N) : Z :=
  let z := Z.of_N x in
  if Z.ltb (2 * z) (256 ^ Z.of_nat k) then z else (z - 256 ^ Z.of_nat k)%Z.
(** Within io.hpp:31-45. *)
Definition write_int (k : nat) (z : Z) : list N := le k (wrap k z).
(** Within io.hpp:31-45. *)
Definition read_int (k : nat) : reader Z := fun old s =>
  let* r := read_scalar k (wrap k old) s in Ok (unwrap k (fst r), snd r).

(** bool is one byte holding 0 or 1; any other byte is a trap representation. *)
Definition write_bool (b : bool) : list N := le 1 (if b then 1 else 0).
(** Within io.hpp:31-45. *)
Definition read_bool : reader bool := fun old s =>
  let* r := read_scalar 1 (if old then 1 else 0) s in
  match fst r with
  | 0 => Ok (false, snd r)
  | 1 => Ok (true, snd r)
  | _ => UB
  end.

(** A contiguous block of scalars of [k] bytes each, as transferred by one is.read/os.write. *)
Definition write_block (k : nat) (xs : list N) : list N := flat_map (le k) xs.
(** Helper without code of its own. *)
Fixpoint chunks (k n : nat) (bs : list N) : list N :=
  match n with
  | O => []
  | S n' => unle (firstn k bs) :: chunks k n' (skipn k bs)
  end.
(** Within io.hpp:47-85. *)
Definition read_block (k : nat) : reader (list N) := fun old s =>
  let n := List.length old in
  let (bs, s') := sread (k * n) (write_block k old) s in Ok (chunks k n bs, s').

Section Environment.

(** Dim. *)
Variable d : nat.
(** What uninitialised memory happens to contain. *)
Variable junk : nat -> N.
(** The largest size that resize() can allocate; beyond it std::length_error or std::bad_alloc. *)
Variable max_elems : N.
(** aniso.determinant() > 0.0 on the raw doubles of a row-major Dim x Dim matrix. *)
Variable det_pos : list N -> bool.

(** Within io.hpp:112-130. *)
Definition uninit (n : nat) : list N := map junk (seq 0 n).

(** Read/Write of std::string and of std::vector of a trivially copyable type (io.hpp:47-85):
    resize keeps the existing elements and value-initialises the new ones. *)
Definition write_vec (k : nat) (xs : list N) : list N :=
  write_scalar 8 (N.of_nat (List.length xs)) ++ write_block k xs.
(** Within io.hpp:47-85. *)
Definition read_vec (k : nat) : reader (list N) := fun old s =>
  let* r := read_scalar 8 0 s in
  let size := fst r in
  if max_elems <? size then Throw ExLengthError
  else
    let n := N.to_nat size in
    read_block k (firstn n old ++ repeat 0 (n - List.length old)) (snd r).

(** Read/Write of std::vector of any other type (io.hpp:87-110). [dflt] is `T value{}`. *)
Definition write_objs {A : Type} (w : A -> list N) (xs : list A) : list N :=
  write_scalar 8 (N.of_nat (List.length xs)) ++ flat_map w xs.
(** Within io.hpp:87-110. *)
Fixpoint read_each {A : Type} (rd : reader A) (olds : list A) (s : stream)
  : outcome (list A * stream) :=
  match olds with
  | [] => Ok ([], s)
  | o :: olds' =>
      let* r := rd o s in
      let* rs := read_each rd olds' (snd r) in
      Ok (fst r :: fst rs, snd rs)
  end.
(** Within io.hpp:87-110. *)
Definition read_objs {A : Type} (dflt : A) (rd : reader A) : reader (list A) := fun old s =>
  let* r := read_scalar 8 0 s in
  let size := fst r in
  if max_elems <? size then Throw ExLengthError
  else
    let n := N.to_nat size in
    read_each rd (firstn n old ++ repeat dflt (n - List.length old)) (snd r).

(** Read/Write of an Eigen matrix of fixed size (io.hpp:112-145): no header; [n] coefficients in
    storage order. *)
Definition write_fixed (xs : list N) : list N := write_block 8 xs.
(** Within io.hpp:112-145. *)
Definition read_fixed : reader (list N) := read_block 8.

(** Read/Write of an Eigen matrix with a dynamic number of rows and [cols] columns (Points, VecX):
    the number of rows, then the coefficients. `Index rows{Rows}` starts as Dynamic = -1.
    A negative size violates Eigen's precondition for resize; an equal size keeps the memory, another
    one allocates uninitialised memory. *)
Record dynmat := mk_dynmat { nrows : nat; coeffs : list N }.
(** Within io.hpp:112-145. *)
Definition write_dynmat (t : dynmat) : list N :=
  write_int 8 (Z.of_nat (nrows t)) ++ write_block 8 (coeffs t).
(** Within io.hpp:112-145. *)
Definition read_dynmat (cols : nat) : reader dynmat := fun old s =>
  let* r := read_int 8 (-1)%Z s in
  let rows := fst r in
  if (rows <? 0)%Z then UB
  else if max_elems <? Z.to_N rows * N.of_nat cols then Throw ExLengthError
  else
    let n := (Z.to_nat rows * cols)%nat in
    let mem := if Nat.eqb (List.length (coeffs old)) n then coeffs old else uninit n in
    let* b := read_block 8 mem (snd r) in
    Ok (mk_dynmat (Z.to_nat rows) (fst b), snd b).

(** Rbf<Dim> (rbf/rbf.hpp, rbf/rbf_base.hpp:99-100): short_name(), params_, aniso_. A null Rbf cannot
    be written (undefined) and is not modelled; Read always replaces the object (rbf_io.hpp:24). *)
Record rbf := mk_rbf { name : list N; params : list N; aniso : list N }.

(** Helper without code of its own. *)
Definition bytes_of_string (s : string) : list N := map N_of_ascii (list_ascii_of_string s).

(** kShortName of the twelve covariance functions and of the four polyharmonic ones
    (make_rbf.hpp:30-45). *)
Definition cov_names : list (list N) :=
  map bytes_of_string
    ["cub"; "exp"; "gau"; "gc3"; "gc5"; "gc7"; "gc9"; "sph"; "sp3"; "sp5"; "sp7"; "sp9"]%string.
(** Within make_rbf.hpp:30-45. *)
Definition poly_names : list (list N) :=
  map bytes_of_string ["bh2"; "bh3"; "th2"; "th3"]%string.

(** Helper without code of its own. *)
Definition name_eqb (a b : list N) : bool := if list_eq_dec N.eq_dec a b then true else false.
(** Helper without code of its own. *)
Definition is_in (n : list N) (l : list (list N)) : bool := existsb (name_eqb n) l.

(** The bit patterns of 1.0, 0.0. *)
Definition one : N := 0x3FF0000000000000.
(** Helper without code of its own. *)
Definition zero : N := 0.

(** Mat::Identity(), row major (rbf_base.hpp:100). *)
Definition identity : list N :=
  flat_map (fun i => map (fun j => if Nat.eqb i j then one else zero) (seq 0 d)) (seq 0 d).

(** make_rbf (make_rbf.hpp:24-50). All RBFs have two parameters; the polyharmonic ones accept zero or
    one and fill in (1.0, 0.0) (polyharmonic_odd.hpp:87-99, polyharmonic_even.hpp likewise). *)
Definition make_rbf (n ps : list N) : outcome rbf :=
  if is_in n cov_names then
    match ps with
    | [_; _] => Ok (mk_rbf n ps identity)
    | _ => Throw ExInvalidArgument
    end
  else if is_in n poly_names then
    match ps with
    | [] => Ok (mk_rbf n [one; zero] identity)
    | [p] => Ok (mk_rbf n [p; zero] identity)
    | [_; _] => Ok (mk_rbf n ps identity)
    | _ => Throw ExInvalidArgument
    end
  else Throw ExRuntimeError.

(** set_anisotropy (rbf_base.hpp:73-79). *)
Definition set_anisotropy (r : rbf) (a : list N) : outcome rbf :=
  if det_pos a then Ok (mk_rbf (name r) (params r) a) else Throw ExInvalidArgument.

(** Read/Write of Rbf (rbf_io.hpp:9-35). *)
Definition write_rbf (r : rbf) : list N :=
  write_vec 1 (name r) ++ write_vec 8 (params r) ++ write_fixed (aniso r).
(** Within rbf_io.hpp:9-35. *)
Definition read_rbf : reader rbf := fun _ s =>
  let* r1 := read_vec 1 [] s in
  let* r2 := read_vec 8 [] (snd r1) in
  let* r3 := read_fixed (uninit (d * d)) (snd r2) in
  let* r := make_rbf (fst r1) (fst r2) in
  let* r' := set_anisotropy r (fst r3) in
  Ok (r', snd r3).

(** Model (model.hpp:178-182, Read/Write 304-323). *)
Record model := mk_model { rbfs : list rbf; poly_degree : Z; nugget : N }.
(** Within model.hpp:178-182. *)
Definition default_model : model := mk_model [] 0 zero.
(** Stands for the null Rbf created by `T value{}`; never observable (see [read_rbf]). *)
Definition null_rbf : rbf := mk_rbf [] [] [].
(** Within model.hpp:303-322. *)
Definition write_model (m : model) : list N :=
  write_objs write_rbf (rbfs m) ++ write_int 4 (poly_degree m) ++ write_scalar 8 (nugget m).
(** Within model.hpp:303-322. *)
Definition read_model : reader model := fun old s =>
  let* r1 := read_objs null_rbf read_rbf (rbfs old) s in
  let* r2 := read_int 4 (poly_degree old) (snd r1) in
  let* r3 := read_scalar 8 (nugget old) (snd r2) in
  Ok (mk_model (fst r1) (fst r2) (fst r3), snd r3).

(** Bbox (geometry/bbox3d.hpp:82-96): min_, max_. The default is empty: +inf, -inf. *)
Record bbox := mk_bbox { bmin : list N; bmax : list N }.
(** Helper without code of its own. *)
Definition pos_inf : N := 0x7FF0000000000000.
(** Helper without code of its own. *)
Definition neg_inf : N := 0xFFF0000000000000.
(** Within geometry/bbox3d.hpp:82-96. *)
Definition default_bbox : bbox := mk_bbox (repeat pos_inf d) (repeat neg_inf d).
(** Within geometry/bbox3d.hpp:82-96. *)
Definition write_bbox (b : bbox) : list N := write_fixed (bmin b) ++ write_fixed (bmax b).
(** Within geometry/bbox3d.hpp:82-96. *)
Definition read_bbox : reader bbox := fun old s =>
  let* r1 := read_fixed (bmin old) s in
  let* r2 := read_fixed (bmax old) (snd r1) in
  Ok (mk_bbox (fst r1) (fst r2), snd r2).

(** Interpolant (interpolant.hpp:331-338; Read/Write 345-367). evaluator_ is not serialised. *)
Record interpolant := mk_interpolant {
  model_ : model; fitted : bool; centers : dynmat; grad_centers : dynmat;
  ibbox : bbox; weights : dynmat }.
(** Within interpolant.hpp:331-338. *)
Definition default_interpolant : interpolant :=
  mk_interpolant default_model false (mk_dynmat 0 []) (mk_dynmat 0 []) default_bbox
                 (mk_dynmat 0 []).
(** Within interpolant.hpp:331-338. *)
Definition write_interpolant (t : interpolant) : list N :=
  write_model (model_ t) ++ write_bool (fitted t) ++ write_dynmat (centers t) ++
  write_dynmat (grad_centers t) ++ write_bbox (ibbox t) ++ write_dynmat (weights t).
(** Within interpolant.hpp:331-338. *)
Definition read_interpolant : reader interpolant := fun old s =>
  let* r1 := read_model (model_ old) s in
  let* r2 := read_bool (fitted old) (snd r1) in
  let* r3 := read_dynmat d (centers old) (snd r2) in
  let* r4 := read_dynmat d (grad_centers old) (snd r3) in
  let* r5 := read_bbox (ibbox old) (snd r4) in
  let* r6 := read_dynmat 1 (weights old) (snd r5) in
  Ok (mk_interpolant (fst r1) (fst r2) (fst r3) (fst r4) (fst r5) (fst r6), snd r6).

(** Variogram and VariogramSet (kriging/variogram.hpp:58-76, kriging/variogram_set.hpp:57-69). The
    pair counts are Index values, kept as raw 64-bit patterns. *)
Record variogram := mk_variogram {
  bin_distance : list N; bin_gamma : list N; bin_num_pairs : list N; direction : list N }.
(** Within kriging/variogram.hpp:58-76, kriging/variogram_set.hpp:57-69. *)
Definition default_variogram : variogram := mk_variogram [] [] [] (uninit d).
(** Within kriging/variogram.hpp:58-76, kriging/variogram_set.hpp:57-69. *)
Definition write_variogram (v : variogram) : list N :=
  write_vec 8 (bin_distance v) ++ write_vec 8 (bin_gamma v) ++ write_vec 8 (bin_num_pairs v) ++
  write_fixed (direction v).
(** Within kriging/variogram.hpp:58-76, kriging/variogram_set.hpp:57-69. *)
Definition read_variogram : reader variogram := fun old s =>
  let* r1 := read_vec 8 (bin_distance old) s in
  let* r2 := read_vec 8 (bin_gamma old) (snd r1) in
  let* r3 := read_vec 8 (bin_num_pairs old) (snd r2) in
  let* r4 := read_fixed (direction old) (snd r3) in
  Ok (mk_variogram (fst r1) (fst r2) (fst r3) (fst r4), snd r4).
(** Within kriging/variogram.hpp:58-76, kriging/variogram_set.hpp:57-69. *)
Definition write_variogram_set (vs : list variogram) : list N := write_objs write_variogram vs.
(** Within kriging/variogram.hpp:58-76, kriging/variogram_set.hpp:57-69. *)
Definition read_variogram_set : reader (list variogram) :=
  read_objs default_variogram read_variogram.

(** load (io.hpp:147-155, 180-184) of a file that can be opened; the stream is dropped. *)
Definition load {A : Type} (rd : reader A) (dflt : A) (file : list N) : outcome A :=
  let* r := rd dflt (mk_stream file false) in Ok (fst r).

(** Within io.hpp:147-155, 180-184. *)
Definition load_model := load read_model default_model.
(** Within io.hpp:147-155, 180-184. *)
Definition load_interpolant := load read_interpolant default_interpolant.
(** Within io.hpp:147-155, 180-184. *)
Definition load_variogram_set := load read_variogram_set [].

End Environment.
