#!/usr/bin/env python3
"""Generate rocq/theories/Conformance.v: every doc-test and unit test of /repo/src that parses a
literal and asserts `issues.is_ok()`, as an Example evaluated on the model (a sanity check of
the model against the project's own tests; not part of the proofs)."""
import re, glob, os
out = []
def chunks():
    for f in sorted(glob.glob('/repo/src/*.rs')):
        s = open(f).read()
        lines = s.split('\n')
        # doc tests
        i = 0
        while i < len(lines):
            m = re.match(r'\s*//[/!] ?```(\w*)\s*$', lines[i])
            if m and m.group(1) in ('', 'rust'):
                j = i + 1
                body = []
                while j < len(lines) and not re.match(r'\s*//[/!] ?```\s*$', lines[j]):
                    l = re.sub(r'^\s*//[/!] ?', '', lines[j])
                    l = re.sub(r'^# ?', '', l)
                    body.append(l)
                    j += 1
                yield f, i + 1, '\n'.join(body)
                i = j + 1
            else:
                i += 1
        for m in re.finditer(r'#\[test\]\n\s*(?:pub )?fn (\w+)\(\)(.*?)\n}\n', s, re.S):
            yield f, s[:m.start()].count('\n') + 1, m.group(2)
def rust_str(t):
    t = re.sub(r'\\\n\s*', '', t)
    return t.replace('\\n', '\n').replace('\\"', '"').replace('\\t', '\t').replace('\\\\', '\\')
def coq_text(s):
    assert all(ord(c) < 128 for c in s)
    return 'txt "%s"' % s.replace('"', '""')
n = 0
for f, line, body in chunks():
    opts = 'default_options'
    items = re.finditer(r'ParseOptions::new\(\)((?:\s*\.\w+\([^)]*\))*)|let (?:mut )?(\w+) =\s*r?(#?)"((?:[^"\\]|\\.)*)"\3;|(parse_statements?)\(\s*&?(\w+)|Statement::(\w+)\(|issues\.(is_ok|get)', body, re.S)
    sqls = {}
    cur = None
    pend = []
    for m in items:
        if m.group(1) is not None:
            opts = 'default_options'
            for k, a in re.findall(r'\.(\w+)\(([^)]*)\)', m.group(1)):
                a = a.strip()
                if k == 'dialect': opts = '(opt_dialect %s %s)' % ({'SQLDialect::MariaDB': 'MariaDB', 'SQLDialect::PostgreSQL': 'PostgreSQL', 'SQLDialect::Sqlite': 'Sqlite'}[a], opts)
                elif k == 'arguments': opts = '(opt_arguments %s %s)' % ({'SQLArguments::None': 'ArgNone', 'SQLArguments::Percent': 'ArgPercent', 'SQLArguments::QuestionMark': 'ArgQuestionMark', 'SQLArguments::Dollar': 'ArgDollar'}[a], opts)
                else:
                    nm = {'warn_unquoted_identifiers': 'opt_warn_unquoted', 'warn_none_capital_keywords': 'opt_warn_caps', 'list_hack': 'opt_list_hack'}[k]
                    opts = '(%s %s %s)' % (nm, a, opts)
        elif m.group(2):
            sqls[m.group(2)] = rust_str(m.group(4))
        elif m.group(5):
            if m.group(6) in sqls:
                cur = [m.group(5), sqls[m.group(6)], opts, f, line, None, False]
                pend.append(cur)
        elif m.group(7) and cur and cur[5] is None:
            cur[5] = m.group(7)
        elif m.group(8) == 'is_ok' and cur:
            cur[6] = True
    for c in pend:
        if not c[6]: continue
        n += 1
        loc = 'src/%s:%d' % (os.path.basename(c[3]), c[4])
        kind = c[5]
        fn = 'ok_statement' if c[0] == 'parse_statement' else 'ok_statements'
        k = 'None' if kind is None else 'Some "%s"' % kind
        out.append('(** %s *)\nExample conf_%d : %s (%s) (%s) %s = true.\nProof. vm_compute. reflexivity. Qed.' % (loc, n, fn, k, coq_text(c[1]), c[2]))
kinds = re.findall(r'^\| S(\w+) \(', open('/verif/rocq/theories/Ast.v').read(), re.M)
head = '''(** Generated by tools/gen_conformance.py.  The doc-tests and unit tests of the project
    that assert [issues.is_ok()], run on the model: no issues are reported and, where the test
    matches on it, the last statement is of the expected kind.  A sanity check of the model. *)
From Verif Require Import Api.
Local Open Scope string_scope.
Definition kind_of (s : stmt) : string :=
  match s with
''' + '\n'.join('  | S%s _ => "%s"' % (k, k) for k in kinds) + '''
  end.
Definition last_kind (l : list stmt) : string :=
  match rev l with s :: _ => kind_of s | [] => "" end.
Definition kind_ok (k : option string) (s : string) : bool :=
  match k with None => true | Some k => String.eqb k s end.
Definition ok_statements (k : option string) (src : text) (o : options) : bool :=
  match parse_statements src [] o with Returns l [] => kind_ok k (last_kind l) | _ => false end.
Definition ok_statement (k : option string) (src : text) (o : options) : bool :=
  match parse_statement_api src [] o with Returns (Some s) [] => kind_ok k (kind_of s) | _ => false end.
'''
open('/verif/rocq/theories/Conformance.v', 'w').write(head + '\n'.join(out) + '\n')
print(n)
