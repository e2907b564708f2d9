(** * What an author means by a mark *)
From Coq Require Import Ascii String.
From Coq Require Import List Arith Bool ZArith Permutation Sorting.Sorted.
From Verif Require Import Base BookModel BookSpec RunModel.
From Verif Require NumbersSpec EditorModel EditorSpec CfgModel CfgSpec EmbedModel EmbedSpec LookModel LookSpec WireModel WireSpec LocalsModel LocalsSpec ReaderSpec
  TraceModel TraceSpec MapperModel MapperSpec WholeModel WholeSpec ScreenModel ScreenSpec LessonModel.
Import ListNotations.
Local Open Scope list_scope.

(** The block at [r] has, between its options and its last fence, the program [c] with markers for states behind the
    texts [ts]. *)
Definition Authored (content : str) (r : nat * nat) (c : str) (ts : list str) : Prop :=
  exists head raw src ls outs marks,
    At content r ((lit "```aquascope," ++ head) ++ raw ++ lit "```") /\ Trimmed raw src /\ SourceLines src ls /\
    Doc 1 [] ls outs marks /\ c = join [10] outs /\
    ts = map (fun m => snd (fst (fst m))) (filter (fun m => match snd (fst m) with Interp => true | _ => false end) marks).

(** The editor shows the text [c] in the lines [d]. *)
Definition InEditor (c : str) (d : EditorModel.doc) : Prop :=
  exists ls last, d = ls ++ [last] /\ EditorSpec.text_before ls last = c /\ Forall (fun l => ~ In 10 l /\ ~ In 13 l) d.

(** The text [t] is [s] with each line end, which may be LF, CR LF or CR, written LF. *)
Inductive Unix : str -> str -> Prop :=
| Unix_end : Unix [] []
| Unix_crlf s t : Unix s t -> Unix (13 :: 10 :: s) (10 :: t)
| Unix_cr s t : Unix s t -> (forall u, s <> 10 :: u) -> Unix (13 :: s) (10 :: t)
| Unix_other c s t : c <> 13 -> Unix s t -> Unix (c :: s) (c :: t).

Definition Ascii (t : str) : Prop := Forall (fun c => c < 128) t.

(** ** What a reader should see *)

(** In the editor with the lines [d], the numbers [ws] and the pictures [ps] belong to each other.  The author marked the
    program behind the texts [ts]: there is a number right behind each of these texts, and no other; the picture with this
    number is a state of the execution in which the function around the mark is at a place before the mark, and it is the
    last such state.  The numbers count in the order of the execution.  Without marks, the number is where the function is. *)
Definition Taught {M} (mac : WholeModel.machine M string) lay u8 prog node_range span_range names bodies m0 t ft c
    (d : EditorModel.doc) (ts : list str) (ws : list ScreenModel.marker) (ps : list ScreenModel.panel) : Prop :=
  length ws = length ps /\
  (ts <> [] -> Permutation (map ScreenModel.k_pos ws) (map EditorSpec.position_after ts) /\
     exists ks, StronglySorted le ks /\ Forall2 (ScreenSpec.LastFits d (WireModel.w_steps (ScreenModel.wire names bodies t))) (map ScreenModel.k_pos ws) ks) /\
  forall i w p, nth_error ws i = Some w -> nth_error ps i = Some p ->
    ScreenModel.k_label w = S i /\ ScreenModel.p_label p = S i /\
    exists err body at_, ScreenSpec.Seen mac lay u8 prog node_range span_range names bodies ft c err m0 (ScreenModel.p_picture p) body at_ /\
      (S i < length ps -> err = None) /\
      (ts = [] -> ScreenSpec.Finishes d at_ (ScreenModel.k_pos w)) /\
      (ts <> [] -> ScreenSpec.MarkFits d body at_ (ScreenModel.k_pos w) /\ exists txt, In txt ts /\ ScreenModel.k_pos w = EditorSpec.position_after txt).

(** The element [e] made of the block at [r] shows the answer [v] as an execution, if it is one: whatever machine printed it.  It shows
    something exactly if each mark fits a state, given that the functions are in the text and their variables can be read off. *)
Definition TrueTo short real (content : str) (r : nat * nat) (e : EmbedModel.embed) (v : json) : Prop :=
  forall M (mac : WholeModel.machine M string) lay u8 prog node_range span_range names bodies m0 fuel depth t,
    v = WireModel.jtrace short (ScreenModel.wire names bodies t) ->
    WholeModel.interpret_whole ScreenSpec.range_eqd prog node_range span_range mac fuel depth m0 = Some (TraceModel.Done t) ->
    TraceSpec.Proper (WholeModel.evaluator mac depth) -> length (WholeModel.k_stack mac m0) = 1 ->
    (forall inst, CfgSpec.Order (MapperModel.fn_nodes (prog inst)) /\ MapperSpec.Tree (prog inst)) ->
    (forall h m, WholeSpec.Path mac m0 h m -> WholeSpec.Sane lay u8 (WholeModel.k_look mac m) /\
       length (WholeModel.v_frames (WholeModel.k_look mac m)) = length (TraceSpec.user_depths (WholeModel.k_stack mac m))) ->
    WireSpec.RealTrace (ScreenModel.wire names bodies t) ->
    LessonModel.executions e <> [] /\
    exists ts d, Authored content r (EmbedModel.m_code e) ts /\ InEditor (EmbedModel.m_code e) d /\
    forall j, In j (LessonModel.executions e) ->
    exists x t', WireSpec.Member "Ok" j x /\ WireSpec.TraceC real x t' /\ WireSpec.AlikeTrace NumbersSpec.Nearest (ScreenModel.wire names bodies t) t' /\
      (forall n ft c ws ps, LessonModel.lesson e n ft c t' = Some (ws, ps) ->
        Taught mac lay u8 prog node_range span_range names bodies m0 t ft c d ts ws ps) /\
      let steps := WireModel.w_steps (ScreenModel.wire names bodies t) in
      forall ft c, ts <> [] -> (forall s, In s steps -> ScreenSpec.InText d s) -> Forall (fun s => LookSpec.StateLegible c (WireModel.snap s)) steps ->
        ((exists n ws ps, LessonModel.lesson e n ft c t' = Some (ws, ps)) <->
         forall txt, In txt ts -> exists s, In s steps /\ ScreenSpec.FitsStep d (EditorSpec.position_after txt) s).
