#!/usr/bin/env python3
"""Generate rocq/theories/FuncTable.v from /repo/src/expression.rs: the keyword->Function
rows of parse_function and the keyword->TimeUnit rows of parse_time_unit."""
import re, sys
src = open('/repo/src/expression.rs').read().split('\n')
def rows(a, b, ctor):
    txt = '\n'.join(src[a-1:b])
    out = []
    for m in re.finditer(r'Token::Ident\(_, ([A-Za-z_0-9: |\n]+?)\)\s*=>\s*(?:\{\s*)?(?:Some\()?' + ctor + r'::(\w+)', txt):
        for k in m.group(1).split('|'):
            out.append((k.strip().replace('Keyword::', ''), m.group(2)))
    return out
def emit(name, rs, cite):
    print(f'(** {cite} ({len(rs)} rows). *)\nDefinition {name} : list (string * string) := [')
    print(';\n'.join(f'  ("{k}", "{v}")' for k, v in rs) + ' ].\n')
print('(** GENERATED by tools/gen_functions.py from /repo/src/expression.rs. *)')
print('From Verif Require Import Base.\nLocal Open Scope string_scope.\n')
emit('time_unit_table', rows(374, 399, 'TimeUnit'), 'src/expression.rs:374-398 [parse_time_unit]')
emit('function_table', rows(678, 893, 'Function'), 'src/expression.rs:678-888, the [match] of [parse_function], keyword rows')
