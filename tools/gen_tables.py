#!/usr/bin/env python3
"""Generate rocq/theories/Tables.v from the tables in /repo (read as text).

Each table is emitted as an association list, arm by arm and in source order,
which is how a Rust `match` is read: the first arm that matches wins.
"""
import re, sys

repo = sys.argv[1] if len(sys.argv) > 1 else '/repo'

def function(path, name):
    lines = open(f'{repo}/{path}').read().split('\n')
    start = next(i for i, l in enumerate(lines) if l.startswith(f'fn {name}('))
    end = next(i for i in range(start, len(lines)) if lines[i] == '}')
    return lines[start:end + 1], start + 1, end + 1

out = ['(** Tables: the constant tables of the crate.',
       '    Generated by tools/gen_tables.py from the text of /repo; each entry is one',
       '    [match] arm, in source order. *)',
       'From Coq Require Import String.',
       'From Verif Require Import Base.',
       'Local Open Scope string_scope.',
       '']

def emit(name, path, fn, kind):
    lines, a, b = function(path, fn)
    rows = []
    for l in lines:
        if kind == 'name':
            m = re.fullmatch(r'\s*(\d+) => "([^"]*)",', l)
            if m: rows.append((m[1], f'"{m[2]}"'))
        elif kind == 'code':
            m = re.fullmatch(r'\s*(\d+) => (\d+) => "([^"]*)",', l)
            if m: rows.append((m[1], m[2]))
        elif kind == 'label':
            m = re.fullmatch(r'\s*(\d+) => (\d+) => "([^"]*)",', l)
            if m: rows.append((m[1], f'"{m[3]}"'))
    arms = sum(' => ' in l and '_ =>' not in l for l in lines)
    assert len(rows) == arms, (name, len(rows), arms)
    typ = 'Z' if kind == 'code' else 'string'
    note = {'name': 'the arms', 'code': 'the arms (glyph identifier and string identifier)',
            'label': 'the names written beside the arms (documentation, unused by the code)'}[kind]
    out.append(f'(** {note} of [{fn}] ({path}:{a}-{b}). *)')
    out.append(f'Definition {name} : list (Z * {typ}) :=')
    body = [f'({k}, {v})' for k, v in rows]
    chunk = []
    for i in range(0, len(body), 4):
        chunk.append('   ' + '; '.join(body[i:i + 4]))
    out.append('  [\n' + ';\n'.join(chunk) + '\n  ].')
    out.append('')

emit('standard_strings', 'src/compact1/index/strings.rs', 'get_standard_string', 'name')
emit('standard_encoding', 'src/compact1/encoding.rs', 'get_standard', 'code')
emit('standard_encoding_labels', 'src/compact1/encoding.rs', 'get_standard', 'label')
emit('expert_encoding', 'src/compact1/encoding.rs', 'get_expert', 'code')
emit('expert_encoding_labels', 'src/compact1/encoding.rs', 'get_expert', 'label')
emit('iso_adobe_names', 'src/compact1/character_set.rs', 'get_iso_adobe', 'name')
emit('expert_names', 'src/compact1/character_set.rs', 'get_expert', 'name')
emit('expert_subset_names', 'src/compact1/character_set.rs', 'get_expert_subset', 'name')
open('/verif/rocq/theories/Tables.v', 'w').write('\n'.join(out))
