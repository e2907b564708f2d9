(** The stand-alone page around the editor: its two tabs, the card of a build error,
    which a clock removes, the card of an internal error, which the user closes, and the
    text of the Stderr pane.  I = frontend/packages/aquascope-standalone/src/index.tsx,
    H = frontend/packages/aquascope-standalone/index.html,
    L = frontend/packages/aquascope-editor/src/lib.tsx.

    Time is counted in milliseconds.  Simplification: a timer that is due is served before
    an event of the same millisecond. *)
From Coq Require Import List Bool Arith NArith Lia.
Import ListNotations.
From Verif Require Import Base.

(** frontend/packages/aquascope-editor/src/types.ts [BackendError], without [ServerStderr]:
    what the tool says of a function, or of a run. *)
Inductive failure := FileNotFound | BuildError | AnalysisError (msg : list nat) | OtherError.
(** I 71-91: what reaches the page's handler. *)
Inductive report := ServerStderr (text : list nat) | Failure (f : failure).

(** An element with its number (H 52-61, [data-tab], [data-pane]) and whether it carries
    the class [active]. *)
Definition elem : Type := (nat * bool)%type.

(** [k_tabs], [k_panes]: the elements; [k_build]: the class [live] on the build error's
    card; [k_due]: the timers set and not yet served; [k_card], [k_msg]: the internal
    error's card and its text; [k_text]: the text of the Stderr pane; [k_alerts]: the
    alerts given. *)
Record cards := Cards { k_tabs : list elem; k_panes : list elem; k_build : bool; k_due : list N;
  k_card : bool; k_msg : list nat; k_text : list nat; k_alerts : nat }.

(** H 51-61, 97-127: the page as it is loaded. *)
Definition loaded : cards := Cards [(0, true); (1, false)] [(0, true); (1, false)] false [] false [] [] 0.

(** I 57, 61: [querySelectorAll(".active")[0].classList.remove("active")]; [None]: there is
    none, and the call throws. *)
Fixpoint deactivate (l : list elem) : option (list elem) :=
  match l with
  | [] => None
  | (n, true) :: r => Some ((n, false) :: r)
  | (n, false) :: r => option_map (cons (n, false)) (deactivate r)
  end.
(** I 58-60: the first pane with the tab's number; [None]: there is none. *)
Fixpoint activate_pane (d : nat) (l : list elem) : option (list elem) :=
  match l with
  | [] => None
  | (n, a) :: r => if n =? d then Some ((n, true) :: r) else option_map (cons (n, a)) (activate_pane d r)
  end.
(** I 62: [el.classList.add("active")], for the tab at a position. *)
Fixpoint activate_tab (i : nat) (l : list elem) : option (list elem) :=
  match l, i with
  | [], _ => None
  | (n, _) :: r, 0 => Some ((n, true) :: r)
  | e :: r, S j => option_map (cons e) (activate_tab j r)
  end.
(** I 55-63 [changeTab], for the tab at a position. *)
Definition change_tab (i : nat) (k : cards) : option cards :=
  match nth_error (k_tabs k) i with
  | None => None
  | Some (d, _) =>
    match deactivate (k_panes k) with
    | None => None
    | Some ps =>
      match activate_pane d ps with
      | None => None
      | Some ps' =>
        match deactivate (k_tabs k) with
        | None => None
        | Some ts =>
          match activate_tab i ts with
          | None => None
          | Some ts' => Some (Cards ts' ps' (k_build k) (k_due k) (k_card k) (k_msg k) (k_text k) (k_alerts k))
          end
        end
      end
    end
  end.

(** I 71-91: the handler, at time [t]. *)
Definition handle (t : N) (k : cards) (r : report) : option cards :=
  match r with
  | Failure FileNotFound => Some (Cards (k_tabs k) (k_panes k) (k_build k) (k_due k) (k_card k) (k_msg k) (k_text k) (S (k_alerts k)))
  | ServerStderr s => Some (Cards (k_tabs k) (k_panes k) (k_build k) (k_due k) (k_card k) (k_msg k) s (k_alerts k))
  | Failure BuildError =>
    option_map (fun k => Cards (k_tabs k) (k_panes k) true (k_due k ++ [(t + 5000)%N]) (k_card k) (k_msg k) (k_text k) (k_alerts k)) (change_tab 1 k)
  | Failure (AnalysisError m) =>
    option_map (fun k => Cards (k_tabs k) (k_panes k) (k_build k) (k_due k) true m (k_text k) (k_alerts k)) (change_tab 1 k)
  | Failure OtherError => Some k
  end.
(** L 346-352: the reports one after the other. *)
Fixpoint handle_all (t : N) (k : cards) (rs : list report) : option cards :=
  match rs with
  | [] => Some k
  | r :: rest => match handle t k r with Some k' => handle_all t k' rest | None => None end
  end.

(** The server's answer to either button: its [success], its [stderr], and its [stdout]:
    the failures listed in it ([None]: it is not JSON).  Simplification: what is JSON has the
    shape that the tool writes. *)
Record answer := Ans { a_success : bool; a_stderr : list nat; a_stdout : option (list failure) }.
(** L 294-308, 323-352: the output is read first (L 297), then the errors are reported. *)
Definition reports (a : answer) : list report :=
  if a_success a then
    match a_stdout a with
    | None => []
    | Some fs => ServerStderr (a_stderr a) :: map Failure fs
    end
  else [ServerStderr (a_stderr a)].

(** What happens on the page. *)
Inductive happening := Click (tab : nat) | Close | Arrives (a : answer).

(** I 80-83: the timers due by [t] take the card away. *)
Definition advance (t : N) (k : cards) : cards :=
  Cards (k_tabs k) (k_panes k) (k_build k && negb (existsb (fun d => (d <=? t)%N) (k_due k)))
    (filter (fun d => negb (d <=? t)%N) (k_due k)) (k_card k) (k_msg k) (k_text k) (k_alerts k).
(** I 64: a click on a tab; I 106-108: the cross; L 280-361: an answer. *)
Definition happen (t : N) (k : cards) (h : happening) : option cards :=
  match h with
  | Click i => change_tab i k
  | Close => Some (Cards (k_tabs k) (k_panes k) (k_build k) (k_due k) false (k_msg k) (k_text k) (k_alerts k))
  | Arrives a => handle_all t k (reports a)
  end.
(** A history, oldest first, each happening with its time. *)
Fixpoint unfold_page (k : cards) (h : list (N * happening)) : option cards :=
  match h with
  | [] => Some k
  | (t, e) :: r => match happen t (advance t k) e with Some k' => unfold_page k' r | None => None end
  end.
(** The page at time [t]. *)
Definition page_at (t : N) (h : list (N * happening)) : option cards := option_map (advance t) (unfold_page loaded h).
