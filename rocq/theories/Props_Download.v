(** C76: downloading and unpacking of the dataset archives. *)
From Coq Require Import List Arith Lia Bool String.
From Verif Require Import DownloadModel DownloadSpec DownloadProofs.
Import ListNotations.

(** Whatever the server sends: a call that returns leaves a file with the known checksum. *)
Theorem C76_checksum : forall (byte digest : Type) (sha : list byte -> digest) deqb, (forall a b, deqb a b = true <-> a = b) ->
  forall e server w w', download sha deqb (Some e) server w = (w', Done) -> exists c, f_final w' = Some c /\ sha c = e.
Proof. intros byte digest sha deqb H e server w w'. exact (download_verified sha deqb H e server w w'). Qed.

(** A file with another checksum is never accepted by any number of later calls. *)
Theorem C76_rejected_stays : forall (byte digest : Type) (sha : list byte -> digest) deqb, (forall a b, deqb a b = true <-> a = b) ->
  forall e servers w c, f_final w = Some c -> sha c <> e ->
  downloads sha deqb (Some e) servers w = (w, repeat Raised (List.length servers)).
Proof. intros byte digest sha deqb H e servers w c. exact (downloads_rejected sha deqb H e servers w c). Qed.

(** With a server that has the file: after any number of broken connections, with and
    without honoured ranges, the part file is a prefix, and a call that returns leaves
    exactly the file, also without checksums. *)
Theorem C76_resume : forall (byte digest : Type) (sha : list byte -> digest) deqb D expected servers,
  Forall (honest D) servers -> let '(w, rs) := downloads sha deqb expected servers (mkfiles None None) in
  (forall p, f_final w = None -> f_part w = Some p -> starts p D) /\ (forall c, f_final w = Some c -> c = D) /\
  (In Done rs -> f_final w = Some D).
Proof.
  intros byte digest sha deqb D expected servers H. pose proof (downloads_good sha deqb D expected servers (mkfiles None None) H I) as K.
  destruct (downloads sha deqb expected servers (mkfiles None None)) as [w rs]. destruct K as (K1 & K2 & _). unfold good in K1. split; [|split]; auto.
  - intros p F P. now rewrite F, P in K1.
  - intros c F. now rewrite F in K1.
Qed.

(** Finding 49a: a call broken off after the last byte and before the renaming leaves a
    complete part file, and no later call succeeds: the range starts at the end of the file. *)
Theorem C76_resume_refuted : forall (byte digest : Type) (sha : list byte -> digest) deqb D expected,
  exists server, honest D server /\ refuses_past_end D server /\
  let w := fst (download sha deqb expected server (mkfiles None None)) in
  w = mkfiles (Some D) None /\
  forall servers, Forall (refuses_past_end D) servers -> downloads sha deqb expected servers w = (w, repeat Raised (List.length servers)).
Proof.
  intros byte digest sha deqb D expected.
  exists (fun r => match r with None => Reply false D false | Some _ => HttpError end). split; [|split].
  - intros [n|]; simpl; auto. split. exists []. now rewrite app_nil_r. discriminate.
  - intros n _. reflexivity.
  - simpl. split; auto. intros servers F. now apply downloads_stuck.
Qed.

(** download_dataset: as long as no unpacking is interrupted, any number of calls with any
    servers leave no folder, and then none of them returned, or the members of an archive
    with the known checksum. *)
Theorem C76_folder : forall (byte digest member : Type) (sha : list byte -> digest) deqb (unpack : list byte -> list member),
  (forall a b, deqb a b = true <-> a = b) -> forall e calls s s' rs, s_folder s = None -> Forall (fun c => snd c = None) calls ->
  fetches sha deqb unpack (Some e) calls s = (s', rs) ->
  (s_folder s' = None /\ ~ In Done rs) \/ (exists c, sha c = e /\ s_folder s' = Some (unpack c)).
Proof. intros byte digest member sha deqb unpack H. exact (fetches_verified sha deqb H unpack). Qed.
Theorem C76_folder_honest : forall (byte digest member : Type) (sha : list byte -> digest) deqb (unpack : list byte -> list member) D e calls s' rs,
  Forall (fun c => honest D (fst c) /\ snd c = None) calls ->
  fetches sha deqb unpack e calls (mkstate (mkfiles None None) None) = (s', rs) -> In Done rs -> s_folder s' = Some (unpack D).
Proof.
  intros byte digest member sha deqb unpack D e calls s' rs H E. exact (fetches_honest sha deqb unpack D e calls (mkstate (mkfiles None None) None) s' rs eq_refl I H E).
Qed.
(** Finding 49b: an interrupted unpacking leaves the folder, and the next call takes it for the
    whole dataset, checksums or not. *)
Theorem C76_folder_refuted : forall (byte digest member : Type) (sha : list byte -> digest) deqb (unpack : list byte -> list member),
  (forall a b, deqb a b = true <-> a = b) -> forall D n, 0 < n < List.length (unpack D) ->
  exists server, honest D server /\ forall server2 stop2,
  let '(s, rs) := fetches sha deqb unpack (Some (sha D)) [(server, Some n); (server2, stop2)] (mkstate (mkfiles None None) None) in
  rs = [Raised; Done] /\ exists l, s_folder s = Some l /\ List.length l = n /\ l <> unpack D.
Proof.
  intros byte digest member sha deqb unpack H D n Hn. exists (fun _ => Reply false D true). split.
  { intros r. split; auto. exists []. now rewrite app_nil_r. }
  intros server2 stop2. cbn [fetches]. unfold fetch at 1. cbn [s_folder s_files]. unfold download. cbn [f_final f_part option_map app]. unfold verify.
  replace (deqb (sha D) (sha D)) with true by (symmetry; now apply H). cbn [f_final].
  assert (L : List.length (firstn n (unpack D)) = n) by (rewrite firstn_length; lia).
  destruct (firstn n (unpack D)) as [|m l] eqn:G. { simpl in L. lia. }
  cbn [folder_of]. unfold fetch. cbn [s_folder]. split; auto. exists (m :: l). split; auto. split; auto. intros E. rewrite E in L. lia.
Qed.

(** The check of the archive's members: on a file system without links, an archive of files and
    directories that passes it writes only inside the directory. *)
Theorem C76_tar_inside : forall limit base l fs fs' ps, linkless fs -> Forall plain l ->
  extract_tar limit base fs l = Some (fs', ps) -> Forall (inside base) ps.
Proof.
  intros limit base l fs fs' ps L P E. unfold extract_tar in E. destruct (check_members base l) eqn:C; [|discriminate].
  exact (proj1 (extract_all_inside limit base l fs fs' ps L P C E)).
Qed.
(** With links elsewhere it is enough that the names are relative and without "..". *)
Theorem C76_tar_relative : forall limit base l fs fs' ps, (forall r t, fs (base ++ r) <> Some (NLink t)) ->
  Forall (fun m => plain m /\ n_abs (t_name m) = false /\ Forall (fun c => c <> ".."%string) (n_parts (t_name m))) l ->
  extract_tar limit base fs l = Some (fs', ps) -> Forall (inside base) ps.
Proof.
  intros limit base l fs fs' ps L P E. unfold extract_tar in E. destruct (check_members base l); [|discriminate].
  exact (extract_all_relative limit base l fs fs' ps L P E).
Qed.

Local Open Scope string_scope.
Definition rel (l : list string) : name := mkname false l.
Definition empty_fs : fsys := fun _ => None.
(** Finding 49c: two symbolic links that pass the check lead out of any directory. *)
Definition escape_sym : list tmember :=
  [mkmember (rel ["s"]) (KSym (rel ["."])); mkmember (rel ["s"; "t"]) (KSym (rel [".."])); mkmember (rel ["t"; "evil"]) KFile].
Theorem C76_symlink_refuted : exists fs' ps,
  extract_tar 40 ["home"; "data"] empty_fs escape_sym = Some (fs', ps) /\ In ["home"; "evil"] ps /\ ~ inside ["home"; "data"] ["home"; "evil"].
Proof.
  eexists. eexists. split; [vm_compute; reflexivity|]. split; [simpl; tauto|]. intros [r E]. discriminate.
Qed.
(** Finding 49d: the target of a hard link is checked from the link's directory, and looked
    up from the extraction directory. *)
Definition escape_hard : list tmember := [mkmember (rel ["a"; "b"]) KDir; mkmember (rel ["a"; "b"; "c"]) (KHard (rel [".."; ".."; "secret"]))].
Theorem C76_hardlink_refuted : exists fs' ps,
  extract_tar 40 ["home"; "data"] empty_fs escape_hard = Some (fs', ps) /\ In ["secret"] ps /\ ~ inside ["home"; "data"] ["secret"].
Proof.
  eexists. eexists. split; [vm_compute; reflexivity|]. split; [simpl; tauto|]. intros [r E]. discriminate.
Qed.
(** With the root as directory, everything but the root itself is refused. *)
Theorem C76_root_refuted : forall n k, abs_join [] n <> [] -> check_member [] (mkmember n k) = false.
Proof.
  intros n k N. unfold check_member, allowed. cbn [t_name]. destruct (path_eqb (abs_join [] n) []) eqn:E. { apply path_eqb_eq in E. now elim N. }
  reflexivity.
Qed.

(** The hypotheses are met. *)
Example C76_case :
  honest [1; 2; 3] (fun r => match r with None => Reply false [1; 2] false | Some 2 => Reply true [3] true | _ => HttpError end) /\
  downloads (fun l => List.length l) Nat.eqb (Some 3)
    (repeat (fun r => match r with None => Reply false [1; 2] false | Some 2 => Reply true [3] true | _ => HttpError end) 2) (mkfiles None None)
  = (mkfiles None (Some [1; 2; 3]), [Raised; Done]) /\
  (exists fs' , extract_tar 40 ["home"; "data"] empty_fs [mkmember (rel ["a"; ".."; "b"]) KDir; mkmember (rel ["b"; "x"]) KFile]
     = Some (fs', [["home"; "data"; "b"]; ["home"; "data"; "b"; "x"]])) /\
  extract_tar 40 ["home"; "data"] empty_fs [mkmember (rel [".."; "x"]) KFile] = None.
Proof.
  split; [|split; [|split]].
  - intros [[|[|[|n]]]|]; simpl; auto.
    + exists 2. split; auto. split; auto. split; auto. exists []. reflexivity.
    + split. exists [3]. reflexivity. discriminate.
  - reflexivity.
  - eexists. vm_compute. reflexivity.
  - reflexivity.
Qed.

Print Assumptions C76_checksum.
Print Assumptions C76_rejected_stays.
Print Assumptions C76_resume.
Print Assumptions C76_resume_refuted.
Print Assumptions C76_folder.
Print Assumptions C76_folder_honest.
Print Assumptions C76_folder_refuted.
Print Assumptions C76_tar_inside.
Print Assumptions C76_tar_relative.
Print Assumptions C76_symlink_refuted.
Print Assumptions C76_hardlink_refuted.
Print Assumptions C76_root_refuted.
