(** What a user expects of the download and of the unpacking. *)
From Coq Require Import List Arith Bool String.
From Verif Require Import DownloadModel.
Import ListNotations.

(** A path is in a directory when it is the directory or continues its path. *)
Definition inside (base p : path) : Prop := exists r, p = base ++ r.

(** A server that has the file [D]: asked for a range it sends the rest of the file (206)
    or ignores the range (200); past the end it answers 416; the connection may
    break at any point. *)
Definition starts {A} (x y : list A) : Prop := exists r, y = x ++ r.
Definition honest {byte} (D : list byte) (server : option nat -> @response byte) : Prop :=
  forall r, match server r with
  | HttpError => True
  | Reply true body complete =>
      exists n, r = Some n /\ n < List.length D /\ starts body (skipn n D) /\ (complete = true -> body = skipn n D)
  | Reply false body complete => starts body D /\ (complete = true -> body = D)
  end.
(** RFC 9110, 15.5.17: a range that starts at or after the end is refused. *)
Definition refuses_past_end {byte} (D : list byte) (server : option nat -> @response byte) : Prop :=
  forall n, List.length D <= n -> server (Some n) = HttpError.

(** No link anywhere. *)
Definition linkless (fs : fsys) : Prop := forall p t, fs p <> Some (NLink t).
Definition plain (m : tmember) : Prop := t_kind m = KFile \/ t_kind m = KDir.
