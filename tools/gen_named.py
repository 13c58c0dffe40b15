#!/usr/bin/env python3
"""Transcribes the check matrices shipped as .npy files in /repo into rocq/theories/NamedData.v (format: little-endian int64)."""
import struct, ast, os
root = os.path.join(os.path.dirname(os.path.abspath(__file__)), "..")
base = '/repo/src/mqt/qecc/codes/'
def load(p):
    b = open(p, 'rb').read(); assert b[:6] == b'\x93NUMPY'
    hl = struct.unpack('<H', b[8:10])[0]; h = ast.literal_eval(b[10:10+hl].decode()); d = b[10+hl:]
    assert h['descr'] == '<i8', h
    r, c = h['shape']; a = struct.unpack('<%dq' % (r*c), d)
    assert set(a) <= {0, 1}
    if h['fortran_order']: return [[a[j*r+i] for j in range(c)] for i in range(r)]
    return [list(a[i*c:(i+1)*c]) for i in range(r)]
out = ['(** * NamedData: the arrays stored in src/mqt/qecc/codes/*/h{x,z}.npy, transcribed by tools/gen_named.py. *)',
       'From Verif Require Import CssModel.', '',
       '(** a row written as a string of 0s and 1s *)',
       'Definition bv (s : string) : vec := map (fun c => Ascii.eqb c "1") (list_ascii_of_string s).', '']
for n in ['steane', 'tetrahedral', 'hamming', 'shor', 'rotated_surface_d3', 'rotated_surface_d5', 'golay', 'carbon', 'cc_4_8_8_d5']:
    for k in ('hx', 'hz'):
        f = base + n + '/' + k + '.npy'
        if not os.path.exists(f): continue
        M = load(f)
        out.append('(** %s *)' % f[len('/repo/'):])
        out.append('Definition %s_%s : nd := mkNd %d\n  [ %s ].' % (n, k, len(M[0]), ';\n    '.join('bv "%s"' % ''.join(map(str, r)) for r in M)))
open(os.path.join(root, 'rocq/theories/NamedData.v'), 'w').write('\n'.join(out) + '\n')
