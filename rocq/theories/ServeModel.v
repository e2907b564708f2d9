(** * Model of where the server listens and where the page asks

    Sources: S/main.rs ([Config]), frontend/packages/aquascope-editor/src/lib.tsx and
    frontend/packages/aquascope-standalone/vite.config.ts. *)

From Coq Require Import Ascii String.
From Coq Require Import List Arith Bool NArith.
From Verif Require Import Base BookModel RunModel.
Import ListNotations.

(** [env::var]: not set, not text, or text. *)
Inductive var := Unset | NotText | Text (s : str).

(** A digit, [char::to_digit(10)]. *)
Definition digit (c : nat) : option nat := if (48 <=? c) && (c <=? 57) then Some (c - 48) else None.

(** [u16::from_str] behind the sign: digits, with checked multiplication and addition. *)
Fixpoint u16_digits (acc : N) (s : str) : option N :=
  match s with
  | [] => Some acc
  | c :: r =>
    match digit c with
    | None => None
    | Some d => let n := (10 * acc + N.of_nat d)%N in if (65535 <? n)%N then None else u16_digits n r
    end
  end.
(** [u16::from_str]: a sign [+] is allowed, no digits are not. *)
Definition parse_u16 (s : str) : option N :=
  match s with
  | [] => None
  | c :: r => if c =? 43 then match r with [] => None | _ => u16_digits 0 r end else u16_digits 0 s
  end.

(** S/main.rs 8-9, 42-45: the port. *)
Definition server_port (v : var) : N :=
  match v with
  | Text s => match parse_u16 s with Some n => n | None => 8008%N end
  | _ => 8008%N
  end.
(** S/main.rs 8, 40-41: the address. *)
Definition server_address (v : var) : str := match v with Text s => s | _ => lit "127.0.0.1" end.

(** An octet of [Ipv4Addr::from_str]: one to three digits up to 255, and no zero in front. *)
Fixpoint octet_digits (acc : nat) (s : str) : option nat :=
  match s with [] => Some acc | c :: r => match digit c with Some d => octet_digits (10 * acc + d) r | None => None end end.
Definition octet (s : str) : option nat :=
  match s with
  | [] => None
  | c :: r =>
    if 3 <? length s then None
    else if (c =? 48) && negb (length r =? 0) then None
    else match octet_digits 0 s with Some n => if n <=? 255 then Some n else None | None => None end
  end.

(** [IpAddr]: the octets, or an address of version 6, whose parser is [v6]. *)
Inductive ip := V4 (a b c d : nat) | V6 (x : list nat).
Definition parse_v4 (s : str) : option ip :=
  match split 46 s with
  | [a; b; c; d] =>
    match octet a, octet b, octet c, octet d with
    | Some a, Some b, Some c, Some d => Some (V4 a b c d)
    | _, _, _, _ => None
    end
  | _ => None
  end.
Definition parse_ip (v6 : str -> option (list nat)) (s : str) : option ip :=
  match parse_v4 s with Some i => Some i | None => option_map V6 (v6 s) end.

(** S/main.rs 54-57 [socket_address]; [None] is the panic "Invalid address", before anything is served.
    Simplification: that the port may be taken is left out. *)
Definition listens (v6 : str -> option (list nat)) (address port : var) : option (ip * N) :=
  option_map (fun i => (i, server_port port)) (parse_ip v6 (server_address address)).

(** The parts of the URL of the server; the path without its first slash, cut at the others. *)
Record url := Url { u_ip : ip; u_port : N; u_path : list str }.
(** lib.tsx 40; vite.config.ts 4: what is asked unless the page is built for another server. *)
Definition default_url : url := Url (V4 127 0 0 1) 8008%N [[]].
(** [new URL(endpoint, base)] for an endpoint without slashes, dots, colons, question marks and hashes: it takes the place of
    what stands behind the last slash. *)
Definition resolve (endpoint : str) (u : url) : url := Url (u_ip u) (u_port u) (removelast (u_path u) ++ [endpoint]).
(** The path of the request line. *)
Definition path_text (p : list str) : str := flat_map (fun s => 47 :: s) p.
(** lib.tsx 241-261 [callBackendWithCode]: to whom, and what. *)
Definition call_backend (u : url) (endpoint code : str) (config : option json) : (ip * N) * request :=
  let t := resolve endpoint u in ((u_ip t, u_port t), Request POST (path_text (u_path t)) (Some (code, config))).
