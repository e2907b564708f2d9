(** The project's own checks of permissions: programs with annotations such as
    [`[x RWO]`], which say what the permissions of a use are.
    T = crates/aquascope/src/test_utils.rs. *)
From Coq Require Import Ascii String.
From Coq Require Import List Arith Bool Lia.
From Verif Require Import Base PermsModel BookModel.
Import ListNotations.

(** A/analysis/permissions/mod.rs [Permissions]: the record of PermsModel. *)
Definition permissions_eqd : forall x y : Permissions, {x = y} + {x <> y}.
Proof. decide equality; apply bool_dec. Defined.

(** [str::to_lowercase().contains(c)] for the letter [l] whose capital is [u]: no other
    character of Unicode has one of r, w, d, o in its lower case. *)
Definition mentions (l u : nat) (s : str) : bool := existsb (fun c => (c =? l) || (c =? u)) s.
(** T 67-78 *)
Definition perms_of (s : str) : Permissions :=
  mkP (mentions 114 82 s) (mentions 119 87 s) (mentions 100 68 s || mentions 111 79 s).

(** [str::split_whitespace]; [w]: the word so far. *)
Fixpoint words (w : str) (s : str) : list str :=
  match s with
  | [] => match w with [] => [] | _ => [w] end
  | c :: r => if is_white c then match w with [] => words [] r | _ => w :: words [] r end else words (w ++ [c]) r
  end.

(** How a call ends early: [bail] with an error, or a panic. *)
Inductive failure := Bail | Panic.
Definition range_eqd : forall x y : nat * nat, {x = y} + {x <> y}.
Proof. decide equality; apply Nat.eq_dec. Defined.
Definition wanted := list ((nat * nat) * Permissions).

(** T 91-163 [split_test_source] with the delimiters of T 216, and T 165-186; [inside]: the
    text since an opening delimiter.  The code compares bytes; the delimiters are ASCII, so
    comparing characters is the same, and every slice is a text. *)
Fixpoint scan (inside : option str) (s : str) (out : str) (m : wanted) : failure + (str * wanted) :=
  match inside with
  | None =>
    match s with
    | [] => inr (out, m)
    | c :: t =>
      match t with
      | d :: r =>
        if (c =? 96) && (d =? 91) then scan (Some []) r out m
        else if (c =? 93) && (d =? 96) then inl Bail
        else scan None t (out ++ [c]) m
      | [] => scan None t (out ++ [c]) m
      end
    end
  | Some x =>
    match s with
    | [] => inl Bail
    | c :: t =>
      match t with
      | d :: r =>
        if (c =? 93) && (d =? 96) then
          match words [] x with
          | var :: ps :: _ => scan None r (out ++ var) (aset range_eqd m (blen out, blen (out ++ var)) (perms_of ps))
          | _ => inl Panic
          end
        else scan (Some (x ++ [c])) t out m
      | [] => scan (Some (x ++ [c])) t out m
      end
    end
  end.
Definition parse_test (src : str) : failure + (str * wanted) := scan None src [] [].

(** What a body has at a range: no place (T 242-248), something that the check does not expect
    (T 250-270), or a place with permissions (T 272-276). *)
Inductive found := NoPlace | Unexpected | Computed (p : Permissions).

(** T 227-291: [retain] in one body; [None]: a panic. *)
Fixpoint retain (body : nat * nat -> found) (m : wanted) : option wanted :=
  match m with
  | [] => Some []
  | (r, p) :: rest =>
    match body r with
    | NoPlace => option_map (cons (r, p)) (retain body rest)
    | Unexpected => None
    | Computed q => if permissions_eqd p q then retain body rest else None
    end
  end.
(** T 222-292, 464-478: the bodies one after the other. *)
Fixpoint check_bodies (bodies : list (nat * nat -> found)) (m : wanted) : option wanted :=
  match bodies with
  | [] => Some m
  | b :: r => match retain b m with Some m' => check_bodies r m' | None => None end
  end.
(** T 213-304 [test_refinements_in_file], on the text of the file: whether it passes.
    [compiler]: what rustc makes of the cleaned program, [None] when it gives up before its
    analysis is over, so that the callback is not called (T 508-514, 535-546). *)
Definition refinement_test (compiler : str -> option (list (nat * nat -> found))) (src : str) : bool :=
  match parse_test src with
  | inl _ => false
  | inr (clean, m) =>
    match compiler clean with
    | None => true
    | Some bodies => match check_bodies bodies m with Some [] => true | _ => false end
    end
  end.

(** [str::starts_with] *)
Fixpoint begins (p s : str) : bool :=
  match p, s with
  | [], _ => true
  | a :: p', b :: s' => (a =? b) && begins p' s'
  | _ :: _, [] => false
  end.
(** T 415-462 [run_in_dir]: the files of a directory ([None]: it cannot be read), each with its
    name and whether its test passes; [only]: the variable ONLY. *)
Fixpoint any_failed (only : option str) (files : list (str * bool)) : bool :=
  match files with
  | [] => false
  | (name, ok) :: r =>
    let skipped := match only with Some o => negb (begins o name) | None => false end in
    (if skipped then false else negb ok) || any_failed only r
  end.
Definition run_in_dir (only : option str) (dir : option (list (str * bool))) : bool :=
  match dir with None => false | Some files => negb (any_failed only files) end.
