#!/usr/bin/env python3
"""Generate theories/Props/P*.v from the statements of theories/Proof/*Top.v.
Every 'Lemma cNN_name_l : statement.' becomes 'Theorem cNN_name : statement.' closed by exact, with
the doc comment that precedes it; blocks '(*EX ... XE*)' are copied as they are."""
import re, sys, os
root = os.path.dirname(os.path.dirname(os.path.abspath(__file__)))
def gen(top, out, title):
    src = open(f'{root}/rocq/theories/Proof/{top}.v').read()
    head = []
    head += re.findall(r'^From Coq Require Import Permutation\.', src, re.M)
    for m in re.finditer(r'^(From Verif Require Import [^.]*(?:\.\w+[^.]*)*\.)\s*$', src, re.M):
        head.append(m.group(1))
    scope = re.findall(r'^Local Open Scope \w+\.', src, re.M)
    items = []
    for m in re.finditer(r'(\(\*\*(?:(?!\*\)).)*\*\)\n)?^Lemma ((?:c\d+|symbols)_\w+)_l :(.*?)\.\nProof', src, re.M | re.S):
        c, n, st = m.groups()
        items.append((m.start(), f'{c or ""}Theorem {n} :{st}.\nProof. exact {n}_l. Qed.\nPrint Assumptions {n}.\n'))
    for m in re.finditer(r'\(\*EX\n(.*?)XE\*\)', src, re.S):
        items.append((m.start(), m.group(1)))
    items.sort()
    with open(f'{root}/rocq/theories/Props/{out}.v', 'w') as f:
        f.write(f'(** {title} *)\n' + '\n'.join(head) + f'\nFrom Verif Require Import Proof.{top}.\n' + '\n'.join(scope) + '\n\n')
        f.write('\n'.join(x for _, x in items))
if __name__ == '__main__':
    import json
    for top, out, title in json.load(open(root + '/tools/props.json')):
        gen(top, out, title)
