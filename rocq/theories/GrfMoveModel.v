(** Moving and converting a Gaussian random field sampler (torch_harmonics/random_fields.py:88-149).

    A tensor is reduced to its device and element type.  A device is None for the CPU and Some k for the k-th GPU.  An error is None.
    The values are the business of GrfModel. *)
From Coq Require Import List Arith Bool.
From Verif Require Import MixedPrecModel.
Import ListNotations.

Definition where_ := option nat.
Record tens := mkt { t_dev : where_; t_dt : dtype }.
Definition same_dev (a b : where_) : bool :=
  match a, b with None, None => true | Some i, Some j => i =? j | _, _ => false end.

(** The buffers pct (of the transform), sqrt_eig and mean (var is treated alike), and the tensors held by the plain attribute
    gaussian_noise *)
Record sampler := mks { s_pct : tens; s_eig : tens; s_mean : tens; s_noise : tens }.

(** random_fields.py:121, 141, 147: Normal(self.mean, self.var) keeps the tensors it is given (broadcast_all) *)
Definition renew (s : sampler) : sampler := mks (s_pct s) (s_eig s) (s_mean s) (s_mean s).
(** random_fields.py:88-121 [__init__] under torch's default type float32: sqrt_eig (107-111) is an integer tensor divided by a Python
    float, so it has the default type; the argument dtype reaches the transform (101) and mean and var (115-116) *)
Definition make (t : dtype) : sampler :=
  renew (mks (mkt None t) (mkt None F32) (mkt None t) (mkt None t)).

(** The arguments of Module.to, each optional *)
Record target := mkg { g_dev : option where_; g_dt : option dtype }.
Definition move_tens (g : target) (x : tens) : tens :=
  mkt (match g_dev g with Some d => d | None => t_dev x end) (match g_dt g with Some t => t | None => t_dt x end).
(** torch.nn.Module._apply: replaces the registered buffers of the module and its children, leaves other attributes *)
Definition module_apply (g : target) (s : sampler) : sampler :=
  mks (move_tens g (s_pct s)) (move_tens g (s_eig s)) (move_tens g (s_mean s)) (s_noise s).

(** [Own]: to or cuda called on the sampler (random_fields.py:139-149).  [Other]: cpu, half, bfloat16, float, double on the sampler, or any
    move of a module that contains it, which calls the sampler's _apply and not its to *)
Inductive step := Own (g : target) | Other (g : target).
Definition do_step (s : sampler) (a : step) : sampler :=
  match a with Own g => renew (module_apply g s) | Other g => module_apply g s end.
Definition history (t : dtype) (h : list step) : sampler := fold_left do_step h (make t).

(** torch.view_as_complex takes half, float and double; the result is given by the type of its parts *)
Definition view_as_complex (x : tens) : option tens := match t_dt x with BF16 => None | _ => Some x end.
(** A product of two tensors with dimensions: one device, promoted type *)
Definition product (x y : tens) : option tens :=
  if same_dev (t_dev x) (t_dev y) then Some (mkt (t_dev x) (promote (t_dt x) (t_dt y))) else None.
(** sht.py:307-343 [InverseRealSHT.forward]: pct is converted to the type of the input (332) and must be on its device; the result is real.
    That FFTs in half precision exist only on GPUs and for some sizes is left out. *)
Definition inverse_transform (pct x : tens) : option tens := product x (mkt (t_dev pct) (t_dt x)).
(** random_fields.py:123-135 [forward] *)
Definition forward (s : sampler) (xi : option tens) : option tens :=
  match (match xi with None => view_as_complex (s_noise s) | Some x => Some x end) with
  | None => None
  | Some x => match product x (s_eig s) with None => None | Some c => inverse_transform (s_pct s) c end
  end.
