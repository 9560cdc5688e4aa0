(** artifact-frontend/src/view.rs: the text of an artifact on its page, up to the markdown library.

    [viz] is the HTML that viz.js makes of a graph ([graph::dot_html_string]: the picture, or a
    message if the graph is not valid). *)
From Coq Require Import ZArith.
From Verif Require Import Base Regex Name Artifact Lint Api Render.
Open Scope nat_scope.

(** view.rs:29-33, [REPLACE_TEXT_RE] without the anchors; group 3 is "dot" *)
Definition re_view : re :=
  seqs [cis (s "```dot"); Star true ws; lit c_nl; Cap 3 (Seq (Seq any_char (Star false any_char)) (lit c_nl)); lits (s "```")].
(** One position; [bol] says whether it is at the beginning of a line. *)
Definition view_here (bol : bool) (t : str) : option (str * option str) :=
  if bol
  then match filter (fun st : Regex.mstate => at_eol (fst st)) (run re_view t []) with
       | (rest, cs) :: _ => Some (rest, cap_get 3 cs)
       | [] => None
       end
  else None.

Section View.
  Variable viz : str -> str.
  (** view.rs:110-113, [replace_markdown_dot] *)
  Definition view_dot (dot : str) : str := [c_nl] ++ s "<html>" ++ [c_nl] ++ viz dot ++ [c_nl] ++ s "</html>" ++ [c_nl].
  (** view.rs:99-108, [replace_markdown].  A match ends in "`", so what follows is not at the
      beginning of a line. *)
  Fixpoint view_from (fuel : nat) (bol : bool) (t : str) : res str :=
    match fuel with
    | 0 => Ok t
    | S n =>
        match view_here bol t with
        | Some (rest, Some dot) => res_bind (view_from n false rest) (fun y => Ok (view_dot dot ++ y))
        | Some (_, None) => Panic
        | None =>
            match t with
            | [] => Ok []
            | c :: t' => res_bind (view_from n (N.eqb c c_nl) t') (fun y => Ok (c :: y))
            end
        end
    end.
  Definition view_replace (t : str) : res str := view_from (length t) true t.

  Context {M : num} {H : Type}.
  (** view.rs:85-97, [ser_markdown] *)
  Definition view_ms (url : option str) : md_settings := mkMs url FamilyDot DotIgnore [].
  (** view.rs:68-71, [markdown_html] *)
  Definition view_text (reported : F M -> Z) (path_str : path -> str) (strfmt : str -> str -> str -> option str) (p : project M H) (base : str)
      (url : option str) (parent t : str) : res str :=
    res_bind (replace_markdown reported path_str strfmt p base (view_ms url) parent t) view_replace.
End View.
